(** Halo and edge exchange of one parity part. *)
From Verif Require Import Base GeometryModel GeometrySpec GeometryProofs OwnerProofs FullLxProofs
  FullLxMain LabelProofs NeighProofs GeoMiscModel GeoMiscProofs HaloModel HaloProofs EdgeProofs EoModel EoProofs EoProofs2.

Section G.
Context (g : grid) (Hv : valid_grid g = true) (Heo : eo_grid_ok g = true).

Lemma in_sizes_even v : In v (sizes g) -> exists h, v = 2 * h.
Proof.
  intros H. destruct (In_nth _ _ 0 H) as (k & Hk & E). rewrite (sizes_len g) in Hk.
  destruct (sizes_even g Hv Heo k Hk) as (h & Eh). exists h. rewrite E in Eh. lia.
Qed.

Lemma bordDir_even mu : (mu < 4)%nat -> exists h, bordDirVol g mu = 2 * h.
Proof.
  intros Hmu. apply in_sizes_even. rewrite (sizes_explicit g Hv). cbn [map app].
  destruct mu as [|[|[|[|]]]]; [| | | |exfalso; clear -Hmu; lia]; cbn; tauto.
Qed.
Lemma edgeDir_even k : (k < 6)%nat -> exists h, edge_dir_vol g k = 2 * h.
Proof.
  intros Hk. apply in_sizes_even. rewrite (sizes_explicit g Hv). cbn [map app].
  destruct k as [|[|[|[|[|[|]]]]]]; [| | | | | |exfalso; clear -Hk; lia]; cbn; tauto.
Qed.
Lemma bordOff_even mu : (mu < 4)%nat -> exists h, bordOffset g mu = 2 * h.
Proof.
  induction mu as [|mu IH]; intros H; [exists 0; reflexivity|]. cbn [bordOffset].
  destruct (IH ltac:(lia)) as (a & ->). destruct (bordDir_even mu ltac:(lia)) as (b & ->). exists (a + b). ring.
Qed.
Lemma edgeOff_even k : (k < 6)%nat -> exists h, edge_offset g k = 2 * h.
Proof.
  induction k as [|k IH]; intros H; [exists 0; reflexivity|]. cbn [edge_offset].
  destruct (IH ltac:(lia)) as (a & ->). destruct (edgeDir_even k ltac:(lia)) as (b & ->). exists (a + b). ring.
Qed.
Lemma bordVolh_even : exists h, bordVolh g = 2 * h.
Proof.
  rewrite bordVolh_eq. destruct (bordDir_even 0 ltac:(lia)) as (a & ->). destruct (bordDir_even 1 ltac:(lia)) as (b & ->).
  destruct (bordDir_even 2 ltac:(lia)) as (c & ->). destruct (bordDir_even 3 ltac:(lia)) as (d & ->). exists (a+b+c+d). ring.
Qed.
Lemma edgeQ_even : exists h, edgeVol g / 4 = 2 * h.
Proof.
  rewrite edgeVol_eq. rewrite (Z.mul_comm 4), Z.div_mul by lia.
  destruct (edgeDir_even 0 ltac:(lia)) as (a & ->). destruct (edgeDir_even 1 ltac:(lia)) as (b & ->).
  destruct (edgeDir_even 2 ltac:(lia)) as (c & ->). destruct (edgeDir_even 3 ltac:(lia)) as (d & ->).
  destruct (edgeDir_even 4 ltac:(lia)) as (e & ->). destruct (edgeDir_even 5 ltac:(lia)) as (f & ->). exists (a+b+c+d+e+f). ring.
Qed.

Lemma quot2 a : Z.quot (2 * a) 2 = a.
Proof. rewrite (Z.mul_comm 2), Z.quot_mul by lia. reflexivity. Qed.

(** halved messages *)
Lemma halo_half mu so ori rc : (mu < 4)%nat -> (ori = 0 \/ ori = 1) ->
  off (halo_msg g rc 1 mu so ori) = 2 * off (halo_msg g rc 2 mu so ori) /\
  len (halo_msg g rc 1 mu so ori) = 2 * len (halo_msg g rc 2 mu so ori).
Proof.
  intros Hmu Ho. unfold halo_msg. cbn [off len]. rewrite !Z.quot_1_r.
  destruct (bordOff_even mu Hmu) as (a & ->). destruct (bordDir_even mu Hmu) as (b & ->). destruct bordVolh_even as (c & ->).
  replace (2 * a + 2 * c * ori) with (2 * (a + c * ori)) by ring. rewrite !quot2. split; reflexivity.
Qed.
Lemma edge_half ie s1 s2 o1 o2 rc : (ie < 6)%nat ->
  off (edge_msg g rc 1 ie s1 s2 o1 o2) = 2 * off (edge_msg g rc 2 ie s1 s2 o1 o2) /\
  len (edge_msg g rc 1 ie s1 s2 o1 o2) = 2 * len (edge_msg g rc 2 ie s1 s2 o1 o2).
Proof.
  intros Hie. unfold edge_msg. cbn [off len]. rewrite !Z.quot_1_r. rewrite !(proj2 (edge_off g Hv ie _)).
  destruct (edgeOff_even ie Hie) as (a & ->). destruct (edgeDir_even ie Hie) as (b & ->). destruct edgeQ_even as (c & ->).
  replace (2 * a + 2 * c * (o2 + 2 * o1)) with (2 * (a + c * (o2 + 2 * o1))) by ring. rewrite !quot2. split; reflexivity.
Qed.

Definition sfof (t : table Z) b := match t b with Some x => x | None => 0 end.

Lemma surf_bord_par rc sched b : in_box rc (nRanksDir g) -> (forall i, In i sched <-> 0 <= i < locVol g) ->
  0 <= b < bordVol g ->
  let t := findSurfOfBord g rc (label_all_sites g rc) sched in
  t b = Some (sfof t b) /\ 0 <= sfof t b < locVol g /\
  site_par g rc (sfof t b) = 1 - site_par g rc (b + locVol g).
Proof.
  intros Hrc Hs Hb t. pose proof (vols_nonneg g Hv) as (V0 & V1 & V2).
  destruct (fullLx_onto g Hv (b + locVol g) ltac:(lia)) as (y & He & Hn2 & Ei).
  assert (Hn : n_out g y = 1%nat).
  { pose proof (fullLx_region g Hv y He Hn2) as R. cbn zeta in R. rewrite Ei in R. clear -R Hb V1 V2. lia. }
  destruct (find_out g Hv y Hn) as (mu & Hmu & Hin).
  pose proof (surf_bord g Hv rc sched y mu Hrc Hs He Hn Hmu Hin) as E. fold t in E.
  replace (fullLxOfCoords g y - locVol g) with b in E by (rewrite Ei; ring).
  unfold sfof. rewrite E. split; [reflexivity|].
  destruct (bord_pair g Hv y mu He Hn Hmu Hin) as (P1 & P2 & P3 & P4 & P5 & _).
  pose proof (lxOfCoord_bounds _ _ P3) as Hbd. rewrite <- (locVol_prod g Hv) in Hbd.
  split; [exact Hbd|]. rewrite <- P4, <- Ei.
  destruct (site_par_full g Hv Heo rc y Hrc He Hn2) as [_ ->].
  destruct (site_par_full g Hv Heo rc _ Hrc P1 ltac:(lia)) as [_ ->].
  assert (Q : psum y = 1 - psum (pull g y mu)); [|rewrite Q; ring].
  rewrite P5 at 1. apply psum_move; [apply P1|exact Hmu|]. unfold side. destruct (_ =? _); lia.
Qed.

Lemma surf_edge_par rc sched b : in_box rc (nRanksDir g) -> (forall i, In i sched <-> 0 <= i < locVol g) ->
  0 <= b < edgeVol g ->
  let t := findSurfOfEdges g rc (label_all_sites g rc) sched in
  t b = Some (sfof t b) /\ 0 <= sfof t b < locVol g /\
  site_par g rc (sfof t b) = site_par g rc (b + (locVol g + bordVol g)).
Proof.
  intros Hrc Hs Hb t. pose proof (vols_nonneg g Hv) as (V0 & V1 & V2).
  destruct (fullLx_onto g Hv (b + (locVol g + bordVol g)) ltac:(lia)) as (y & He & Hn2 & Ei).
  assert (Hn : n_out g y = 2%nat).
  { pose proof (fullLx_region g Hv y He Hn2) as R. cbn zeta in R. rewrite Ei in R. clear -R Hb V0 V1 V2. lia. }
  destruct (find_out2 g Hv y Hn) as (ie & Hie & Hin & Hin').
  pose proof (surf_edge g Hv rc sched y ie Hrc Hs He Hn Hie Hin Hin') as E. fold t in E.
  replace (fullLxOfCoords g y - locVol g - bordVol g) with b in E by (rewrite Ei; ring).
  unfold sfof. rewrite E. split; [reflexivity|].
  pose proof (edge_dir_lt g Hv ie Hie) as Hlt.
  destruct (edge_pair g Hv y _ _ He Hn Hlt Hin Hin') as (P1 & P2 & P3 & P4 & _ & _ & _ & P5 & P6 & P7).
  pose proof (lxOfCoord_bounds _ _ P3) as Hbd. rewrite <- (locVol_prod g Hv) in Hbd.
  split; [exact Hbd|]. rewrite <- P4, <- Ei.
  destruct (site_par_full g Hv Heo rc y Hrc He Hn2) as [_ ->].
  destruct (site_par_full g Hv Heo rc _ Hrc P1 ltac:(lia)) as [_ ->].
  assert (Q : psum y = 1 - (1 - psum (epull g y (fst (edge_dir ie)) (snd (edge_dir ie))))); [|rewrite Q; ring].
  rewrite P5 at 1. rewrite psum_move; [rewrite psum_move; [reflexivity|apply P1|lia|]|apply P6|lia|]; unfold side; destruct (_ =? _); lia.
Qed.

Lemma half_split i p q : i / 2 = p -> 2 * q <= i -> q <= p.
Proof. intros. lia. Qed.

Theorem halo_eo_main {A} (sched : Z -> list Z) (par : Z) (data : Z -> table A) :
  par = 0 \/ par = 1 ->
  (forall q, 0 <= q < nranks g -> forall i, In i (sched q) <-> 0 <= i < locVol g) ->
  forall r, 0 <= r < nranks g ->
  exists d', updateHaloEo g sched par data r = Some d' /\
    (forall e, ~ (locVolh g <= e < locVolh g + bordVolh g) -> d' e = data r e) /\
    (forall e, locVolh g <= e < locVolh g + bordVolh g ->
       exists i gc r' i' e', loclx_of_loceo (rank_eo g r) par e = Some i /\
         glbCoordOfLoclx (rank_labels g r) i = Some gc /\
         getLoclxAndRankOfCoords g gc = (r', i') /\ 0 <= r' < nranks g /\ 0 <= i' < locVol g /\
         loclx_parity (rank_eo g r') i' = Some par /\ loceo_of_loclx (rank_eo g r') i' = Some e' /\ 0 <= e' < locVolh g /\
         d' e = data r' e').
Proof.
  intros Hpar Hs r Hr. destruct (rank_coord_box g Hv r Hr) as [Hrc Er].
  pose proof (vols_nonneg g Hv) as (V0 & V1 & V2).
  pose proof (locVolh_dbl g Hv Heo) as HLh. pose proof (bordVolh_dbl g) as HBh.
  unfold updateHaloEo.
  set (sb := fun q => fill_send _ _). set (rc := coordOfRank g r) in *.
  destruct (recv_all_spec (fun q => halo_sends g (coordOfRank g q) 2) sb r
    (fun m => halo_msg g (coordOfRank g (peer m)) 2 (Z.to_nat (tag m / 2)) (tag m mod 2) (tag m mod 2))
    (halo_recvs g rc 2)) as (rb & E & Hrb).
  { intros m Hm. unfold halo_recvs in Hm. apply in_map_iff in Hm as ([mu so] & <- & Hin).
    apply filter_In in Hin as [Hin Hp]. cbn [fst] in Hp. apply halo_loop_in in Hin as [Hmu Hso].
    assert (Et : tag (halo_msg g rc 2 mu so (1 - so)) = so + 2 * Z.of_nat mu) by reflexivity.
    rewrite Et. 
    replace ((so + 2 * Z.of_nat mu) / 2) with (Z.of_nat mu) by (clear -Hso; apply Z.div_unique with so; lia).
    replace ((so + 2 * Z.of_nat mu) mod 2) with so by (clear -Hso; apply Z.mod_unique with (Z.of_nat mu); lia).
    rewrite Nat2Z.id. split; [|reflexivity].
    destruct (halo_match g Hv r 2 mu so Hr Hmu Hso Hp) as (H & _). fold rc in H. rewrite Et in H. exact H. }
  rewrite E. cbn [option_map]. eexists. split; [reflexivity|].
  replace (Z.quot (locVol g) 2) with (locVolh g) by reflexivity.
  replace (Z.quot (bordVol g) 2) with (bordVolh g) by (rewrite HBh, quot2; reflexivity).
  split.
  { intros i Hi. unfold fill_from_recv. destruct ((_ <=? _) && _) eqn:Eb; [|reflexivity]. exfalso; clear -Hi Eb; lia. }
  intros e He0.
  destruct (eo_onto g Hv Heo rc par e Hrc Hpar) as (i & Hi & Ehalf & Epar); [lia|unfold totVol; lia|].
  assert (Hib : locVol g <= i < locVol g + bordVol g) by (clear -HLh HBh Ehalf He0; lia).
  destruct (fullLx_onto g Hv i ltac:(unfold totVol in Hi; lia)) as (y & He & Hn2 & Ei).
  assert (Hn : n_out g y = 1%nat).
  { pose proof (fullLx_region g Hv y He Hn2) as R. cbn zeta in R. rewrite Ei in R. clear -R Hib V0 V1 V2. lia. }
  destruct (find_out g Hv y Hn) as (mu & Hmu & Hin).
  destruct (out_flag g Hv y mu He Hmu Hin) as [Ho Hp].
  destruct (bord_owner g Hv rc y mu Hrc He Hn Hmu Hin) as (Heo' & Hno & Hino & Hso & Hbx & Hown).
  set (o := upd y mu _) in *. set (rc' := nshift g rc mu _) in *.
  destruct (bord_pair g Hv o mu Heo' Hno Hmu Hino) as (Hep & Hnp & Hbo & Efp & _).
  assert (Hrc' : in_box rc' (nRanksDir g)) by (apply nshift_box; assumption).
  destruct (coordOfRank_rank g rc' Hrc') as [Ec Hr'].
  pose proof (lxOfCoord_bounds _ _ Hbo) as Hx. rewrite <- (locVol_prod g Hv) in Hx. fold (loclxOfCoord g (pull g o mu)) in Hx.
  (* parity of the owner's site *)
  assert (Hpp : site_par g rc' (loclxOfCoord g (pull g o mu)) = par).
  { rewrite <- Efp. destruct (site_par_full g Hv Heo rc' _ Hrc' Hep ltac:(lia)) as [_ ->].
    rewrite <- Epar, <- Ei. destruct (site_par_full g Hv Heo rc y Hrc He Hn2) as [_ ->].
    rewrite <- (parity_true g Hv Heo rc y Hrc (proj1 He)), <- (parity_true g Hv Heo rc' (pull g o mu) Hrc' (proj1 Hep)).
    f_equal. rewrite (true_glb_shift g Hv rc y mu (2 * side y.[mu] - 1) Hrc (proj1 He) Hmu). fold rc'. f_equal.
    unfold pull, o. rewrite nth_upd_eq by (rewrite (proj1 He); assumption). rewrite upd_upd. f_equal.
    unfold side. destruct (dir_facts g Hv mu Hmu) as (Hloc & _). clear -Hloc Ho. destruct (Z.eqb_spec y.[mu] (-1)) as [E|E].
    + destruct (Z.eqb_spec (locSize g).[mu] (-1)); lia.
    + cbn [Z.eqb Pos.eqb]. lia. }
  destruct (eo_of g Hv Heo rc Hrc i Hi) as (_ & _ & F3). rewrite Epar, Ehalf in F3.
  destruct (eo_of g Hv Heo rc' Hrc' (loclxOfCoord g (pull g o mu)) ltac:(unfold totVol; lia)) as (G1 & G2 & _). rewrite Hpp in G1.
  exists i, (true_glb g rc y), (rankOfCoords g rc'), (loclxOfCoord g (pull g o mu)), (loclxOfCoord g (pull g o mu) / 2).
  split; [unfold rank_eo, rank_labels; fold rc; exact F3|].
  split; [unfold rank_labels; fold rc; rewrite <- Ei; now apply (label_spec g Hv)|]. split; [exact Hown|].
  split; [exact Hr'|]. split; [exact Hx|].
  split; [unfold rank_eo, rank_labels; rewrite Ec; exact G1|]. split; [unfold rank_eo, rank_labels; rewrite Ec; exact G2|].
  split; [clear -Hx HLh; lia|].
  unfold fill_from_recv. replace ((_ <=? e) && (e <? _)) with true by (symmetry; clear -He0; lia).
  pose (so := 1 - side y.[mu]).
  assert (Hso' : so = 0 \/ so = 1) by (unfold so, side; destruct (_ =? _); auto).
  destruct (fullLx_bord g Hv y mu He Hn Hmu Hin) as [Efy Bfy]. destruct (fullLx_bord g Hv o mu Heo' Hno Hmu Hino) as [Efo Bfo].
  pose (m := halo_msg g rc 2 mu so (1 - so)).
  assert (Hside : 1 - so = side y.[mu]) by (unfold so; ring).
  destruct (halo_half mu so (1 - so) rc Hmu ltac:(lia)) as [Hoff Hlen]. fold m in Hoff, Hlen.
  assert (Eoff : off (halo_msg g rc 1 mu so (1 - so)) = bordOffset g mu + bordVolh g * side y.[mu]).
  { unfold halo_msg. cbn [off]. now rewrite Z.quot_1_r, Hside. }
  assert (Elen : len (halo_msg g rc 1 mu so (1 - so)) = bordDirVol g mu).
  { unfold halo_msg. cbn [len]. now rewrite Z.quot_1_r. }
  rewrite Eoff in Hoff. rewrite Elen in Hlen.
  assert (Hcov : covers m (e - locVolh g)).
  { unfold covers. rewrite <- Ehalf. rewrite Ei in Efy. clear -Hoff Hlen Efy Bfy HLh. lia. }
  assert (Hmin : In m (halo_recvs g rc 2)).
  { unfold halo_recvs. apply in_map_iff. exists (mu, so). split; [reflexivity|].
    apply filter_In. split; [now apply halo_loop_in|exact Hp]. }
  rewrite (Hrb m _ Hmin Hcov).
  2:{ intros m' Hm' Hc'. unfold halo_recvs in Hm'. apply in_map_iff in Hm' as ([mu' so2] & <- & Hin').
      apply filter_In in Hin' as [Hin' _]. apply halo_loop_in in Hin' as [Hmu' Hso2].
      destruct (halo_half mu so (1 - so) rc Hmu ltac:(clear -Hso'; lia)) as [A1 A2]. fold m in A1, A2.
      destruct (halo_half mu' so2 (1 - so2) rc Hmu' ltac:(clear -Hso2; lia)) as [B1 B2].
      destruct (halo_ranges g Hv 1 mu so mu' so2 Hmu Hmu' Hso' Hso2 eq_refl (2 * (e - locVolh g))) as [-> ->]; [| |reflexivity].
      - change (covers (halo_msg g rc 1 mu so (1 - so)) (2 * (e - locVolh g))). unfold covers in *. rewrite A1, A2. clear -Hcov. lia.
      - change (covers (halo_msg g rc 1 mu' so2 (1 - so2)) (2 * (e - locVolh g))). unfold covers in *. rewrite B1, B2. clear -Hc'. lia. }
  assert (Et : tag m = so + 2 * Z.of_nat mu) by reflexivity. rewrite Et.
  replace ((so + 2 * Z.of_nat mu) / 2) with (Z.of_nat mu) by (clear -Hso'; apply Z.div_unique with so; lia).
  replace ((so + 2 * Z.of_nat mu) mod 2) with so by (clear -Hso'; apply Z.mod_unique with (Z.of_nat mu); lia).
  rewrite Nat2Z.id.
  destruct (halo_match g Hv r 2 mu so Hr Hmu Hso' Hp) as (_ & Ecp & Hpr). fold rc in Ecp, Hpr. fold m in Ecp, Hpr.
  replace (1 - 2 * so) with (2 * side y.[mu] - 1) in Ecp by (unfold so; ring). fold rc' in Ecp.
  assert (Epm : peer m = rankOfCoords g rc'). { rewrite <- Ecp. symmetry. now apply rank_coord_box. }
  set (b := fullLxOfCoords g o - locVol g).
  assert (Hb : 0 <= b < bordVol g).
  { pose proof (fullLx_region g Hv o Heo' ltac:(lia)) as R. cbn zeta in R. unfold b. clear -R Hno V0 V1 V2. lia. }
  replace (off (halo_msg g (coordOfRank g (peer m)) 2 mu so so) + (e - locVolh g - off m)) with (b / 2).
  2:{ destruct (halo_half mu so so (coordOfRank g (peer m)) Hmu Hso') as [C1 _].
      assert (C0 : off (halo_msg g (coordOfRank g (peer m)) 1 mu so so) = bordOffset g mu + bordVolh g * so).
      { unfold halo_msg. cbn [off]. now rewrite Z.quot_1_r. }
      rewrite C0 in C1. rewrite Hso, Hbx in Efo. fold so in Efo. rewrite Ei in Efy. unfold b.
      generalize dependent (off (halo_msg g (coordOfRank g (peer m)) 2 mu so so)). intros cs C1.
      clear -C1 Hoff Efo Efy Ehalf HLh. lia. }
  rewrite Epm. unfold sb, fill_send, rank_eo, rank_labels. rewrite Ec.
  pose proof (surf_bord g Hv rc' (sched (rankOfCoords g rc')) o mu Hrc' (Hs _ Hr') Heo' Hno Hmu Hino) as Esf. fold b in Esf.
  unfold surfeo_of_bordeo.
  rewrite (surfeo_spec g Hv Heo rc' Hrc' _ (sfof (findSurfOfBord g rc' (label_all_sites g rc') (sched (rankOfCoords g rc'))))
     (locVol g) (locVolh g) (bordVol g) (fun x => 1 - x) par b).
  - unfold sfof. rewrite Esf. reflexivity.
  - lia.
  - unfold totVol. lia.
  - exact HLh.
  - intros c Hc. apply surf_bord_par; auto.
  - intros x z H. lia.
  - exact Hb.
  - unfold sfof. rewrite Esf. exact Hpp.
Qed.

Theorem edges_eo_main {A} (sched : Z -> list Z) (par : Z) (data : Z -> table A) :
  par = 0 \/ par = 1 ->
  (forall q, 0 <= q < nranks g -> forall i, In i (sched q) <-> 0 <= i < locVol g) ->
  forall r, 0 <= r < nranks g ->
  exists d', updateEdgesEo g sched par data r = Some d' /\
    (forall e, ~ (locVolh g + bordVolh g <= e < locVolh g + bordVolh g + edgeVolh g) -> d' e = data r e) /\
    (forall e, locVolh g + bordVolh g <= e < locVolh g + bordVolh g + edgeVolh g ->
       exists i gc r' i' e', loclx_of_loceo (rank_eo g r) par e = Some i /\
         glbCoordOfLoclx (rank_labels g r) i = Some gc /\
         getLoclxAndRankOfCoords g gc = (r', i') /\ 0 <= r' < nranks g /\ 0 <= i' < locVol g /\
         loclx_parity (rank_eo g r') i' = Some par /\ loceo_of_loclx (rank_eo g r') i' = Some e' /\ 0 <= e' < locVolh g /\
         d' e = data r' e').
Proof.
  intros Hpar Hs r Hr. destruct (rank_coord_box g Hv r Hr) as [Hrc Er].
  pose proof (vols_nonneg g Hv) as (V0 & V1 & V2).
  pose proof (locVolh_dbl g Hv Heo) as HLh. pose proof (bordVolh_dbl g) as HBh. pose proof (edgeVolh_dbl g Hv Heo) as HEh.
  unfold updateEdgesEo.
  set (sb := fun q => fill_send _ _). set (rc := coordOfRank g r) in *.
  destruct (recv_all_spec (fun q => edge_sends g (coordOfRank g q) 2) sb r
    (fun m => edge_msg g (coordOfRank g (peer m)) 2 (Z.to_nat (tag m / 4)) ((tag m / 2) mod 2) (tag m mod 2) ((tag m / 2) mod 2) (tag m mod 2))
    (edge_recvs g rc 2)) as (rb & E & Hrb).
  { intros m Hm. unfold edge_recvs in Hm. apply in_map_iff in Hm as ((ie & s1 & s2) & <- & Hin).
    apply filter_In in Hin as [Hin Hp]. cbn [fst] in Hp. apply (edge_loop_in g Hv) in Hin as (Hie & H1 & H2).
    assert (Et : tag (edge_msg g rc 2 ie s1 s2 (1 - s1) (1 - s2)) = s2 + 2 * (s1 + 2 * Z.of_nat ie)) by reflexivity.
    rewrite Et. destruct (edge_tag g Hv s1 s2 (Z.of_nat ie) H1 H2) as (T1 & T2 & T3). rewrite T1, T2, T3.
    rewrite Nat2Z.id. split; [|reflexivity].
    destruct (edge_match g Hv r 2 ie s1 s2 Hr Hie H1 H2 Hp) as (H & _). fold rc in H. rewrite Et in H. exact H. }
  rewrite E. cbn [option_map]. eexists. split; [reflexivity|].
  replace (Z.quot (locVol g + bordVol g) 2) with (locVolh g + bordVolh g).
  2:{ rewrite HLh, HBh. replace (2 * locVolh g + 2 * bordVolh g) with (2 * (locVolh g + bordVolh g)) by ring. now rewrite quot2. }
  replace (Z.quot (edgeVol g) 2) with (edgeVolh g) by reflexivity.
  split.
  { intros i Hi. unfold fill_from_recv. destruct ((_ <=? _) && _) eqn:Eb; [|reflexivity]. exfalso; clear -Hi Eb; lia. }
  intros e He0.
  destruct (eo_onto g Hv Heo rc par e Hrc Hpar) as (i & Hi & Ehalf & Epar); [lia|unfold totVol; lia|].
  assert (Hib : locVol g + bordVol g <= i < locVol g + bordVol g + edgeVol g) by (clear -HLh HBh HEh Ehalf He0; lia).
  destruct (fullLx_onto g Hv i ltac:(unfold totVol in Hi; lia)) as (y & He & Hn2 & Ei).
  assert (Hn : n_out g y = 2%nat).
  { pose proof (fullLx_region g Hv y He Hn2) as R. cbn zeta in R. rewrite Ei in R. clear -R Hib V0 V1 V2. lia. }
  destruct (find_out2 g Hv y Hn) as (ie & Hie & Hin & Hin').
  destruct (edge_owner g Hv rc y ie Hrc He Hn Hie Hin Hin') as (Heo' & Hno & Hino & Hino' & Hso & Hso2 & Hbx & Hown).
  pose proof (edge_dir_lt g Hv ie Hie) as Hlt.
  destruct (fullLx_edge g Hv y ie He Hn Hie Hin Hin') as [Efy Bfy]. 
  set (o := opp g (opp g y _) _) in *. 
  destruct (fullLx_edge g Hv o ie Heo' Hno Hie Hino Hino') as [Efo _].
  destruct (edge_match g Hv r 2 ie (1 - side y.[fst (edge_dir ie)]) (1 - side y.[snd (edge_dir ie)]) Hr Hie) as (_ & Ecp & Hpr).
  { unfold side. destruct (_ =? _); lia. } { unfold side. destruct (_ =? _); lia. }
  { unfold isEdgeParallel. rewrite (surjective_pairing (edge_dir ie)).
    destruct (out_flag g Hv y (fst (edge_dir ie)) He ltac:(lia) Hin) as [_ ->]. destruct (out_flag g Hv y (snd (edge_dir ie)) He ltac:(lia) Hin') as [_ ->]. reflexivity. }
  pose proof (surf_edge g Hv) as Hsurf0.
  remember (fst (edge_dir ie)) as mu eqn:Emu. remember (snd (edge_dir ie)) as nu eqn:Enu.
  destruct (out_flag g Hv y mu He ltac:(lia) Hin) as [Ho Hp]. destruct (out_flag g Hv y nu He ltac:(lia) Hin') as [Ho' Hp'].
  assert (Hep' : isEdgeParallel g ie = true).
  { unfold isEdgeParallel. rewrite (surjective_pairing (edge_dir ie)). rewrite <- Emu, <- Enu. now rewrite Hp, Hp'. }
  set (rc' := nshift2 g rc mu _ nu _) in *.
  destruct (edge_pair g Hv o mu nu Heo' Hno Hlt Hino Hino') as (Hep & Hnp & Hbo & Efp & _).
  assert (Hrc' : in_box rc' (nRanksDir g)) by (apply nshift2_box; assumption).
  destruct (coordOfRank_rank g rc' Hrc') as [Ec Hr'].
  pose proof (lxOfCoord_bounds _ _ Hbo) as Hx. rewrite <- (locVol_prod g Hv) in Hx. fold (loclxOfCoord g (epull g o mu nu)) in Hx.
  assert (Hpp : site_par g rc' (loclxOfCoord g (epull g o mu nu)) = par).
  { rewrite <- Efp. destruct (site_par_full g Hv Heo rc' _ Hrc' Hep ltac:(lia)) as [_ ->].
    rewrite <- Epar, <- Ei. destruct (site_par_full g Hv Heo rc y Hrc He Hn2) as [_ ->].
    rewrite <- (parity_true g Hv Heo rc y Hrc (proj1 He)), <- (parity_true g Hv Heo rc' (epull g o mu nu) Hrc' (proj1 Hep)).
    f_equal.
    apply (owner_inj g); auto; try (apply (true_glb_box g Hv); auto; first [apply Hep | apply He]).
    rewrite Hown. rewrite (true_glb_in g Hv) by assumption. apply owner_bwd; assumption. }
  destruct (eo_of g Hv Heo rc Hrc i Hi) as (_ & _ & F3). rewrite Epar, Ehalf in F3.
  destruct (eo_of g Hv Heo rc' Hrc' (loclxOfCoord g (epull g o mu nu)) ltac:(unfold totVol; lia)) as (G1 & G2 & _). rewrite Hpp in G1.
  exists i, (true_glb g rc y), (rankOfCoords g rc'), (loclxOfCoord g (epull g o mu nu)), (loclxOfCoord g (epull g o mu nu) / 2).
  split; [unfold rank_eo, rank_labels; fold rc; exact F3|].
  split; [unfold rank_labels; fold rc; rewrite <- Ei; now apply (label_spec g Hv)|]. split; [exact Hown|].
  split; [exact Hr'|]. split; [exact Hx|].
  split; [unfold rank_eo, rank_labels; rewrite Ec; exact G1|]. split; [unfold rank_eo, rank_labels; rewrite Ec; exact G2|].
  split; [clear -Hx HLh; lia|].
  unfold fill_from_recv. replace ((_ <=? e) && (e <? _)) with true by (symmetry; clear -He0; lia).
  pose (s1 := 1 - side y.[mu]). pose (s2 := 1 - side y.[nu]).
  assert (Hs1 : s1 = 0 \/ s1 = 1) by (unfold s1, side; destruct (_ =? _); auto).
  assert (Hs2 : s2 = 0 \/ s2 = 1) by (unfold s2, side; destruct (_ =? _); auto).
  pose (m := edge_msg g rc 2 ie s1 s2 (1 - s1) (1 - s2)).
  assert (Hsd1 : 1 - s1 = side y.[mu]) by (unfold s1; ring). assert (Hsd2 : 1 - s2 = side y.[nu]) by (unfold s2; ring).
  destruct (edge_half ie s1 s2 (1 - s1) (1 - s2) rc Hie) as [Hoff Hlen]. fold m in Hoff, Hlen.
  assert (Eoff : off (edge_msg g rc 1 ie s1 s2 (1 - s1) (1 - s2)) = edge_offset g ie + Z.quot (edgeVol g * (side y.[nu] + 2 * side y.[mu])) 4).
  { unfold edge_msg. cbn [off]. now rewrite Z.quot_1_r, Hsd1, Hsd2. }
  assert (Elen : len (edge_msg g rc 1 ie s1 s2 (1 - s1) (1 - s2)) = edge_dir_vol g ie).
  { unfold edge_msg. cbn [len]. now rewrite Z.quot_1_r. }
  rewrite Eoff in Hoff. rewrite Elen in Hlen.
  assert (Hcov : covers m (e - (locVolh g + bordVolh g))).
  { unfold covers. rewrite <- Ehalf. rewrite Ei in Efy. revert Hoff Hlen Efy Bfy HLh HBh. clear.
    generalize (Z.quot (edgeVol g * (side y.[nu] + 2 * side y.[mu])) 4). intros. lia. }
  assert (Hmin : In m (edge_recvs g rc 2)).
  { unfold edge_recvs. apply in_map_iff. exists (ie, (s1, s2)). split; [reflexivity|].
    apply filter_In. split; [now apply (edge_loop_in g Hv)|exact Hep']. }
  rewrite (Hrb m _ Hmin Hcov).
  2:{ intros m' Hm' Hc'. unfold edge_recvs in Hm'. apply in_map_iff in Hm' as ((je & t1 & t2) & <- & Hj).
      apply filter_In in Hj as [Hj _]. apply (edge_loop_in g Hv) in Hj as (Hje & Ht1 & Ht2).
      destruct (edge_half ie s1 s2 (1 - s1) (1 - s2) rc Hie) as [A1 A2]. fold m in A1, A2.
      destruct (edge_half je t1 t2 (1 - t1) (1 - t2) rc Hje) as [B1 B2].
      destruct (edge_ranges g Hv ie s1 s2 je t1 t2 Hie Hje Hs1 Hs2 Ht1 Ht2 (2 * (e - (locVolh g + bordVolh g)))) as (-> & -> & ->); [| |reflexivity].
      - change (covers (edge_msg g rc 1 ie s1 s2 (1 - s1) (1 - s2)) (2 * (e - (locVolh g + bordVolh g)))). unfold covers in *. rewrite A1, A2. clear -Hcov. lia.
      - change (covers (edge_msg g rc 1 je t1 t2 (1 - t1) (1 - t2)) (2 * (e - (locVolh g + bordVolh g)))). unfold covers in *. rewrite B1, B2. clear -Hc'. lia. }
  assert (Et : tag m = s2 + 2 * (s1 + 2 * Z.of_nat ie)) by reflexivity. rewrite Et.
  destruct (edge_tag g Hv s1 s2 (Z.of_nat ie) Hs1 Hs2) as (T1 & T2 & T3). rewrite T1, T2, T3. rewrite Nat2Z.id.
  fold rc in Ecp, Hpr. fold s1 s2 in Ecp, Hpr. fold m in Ecp, Hpr.
  replace (1 - 2 * s1) with (2 * side y.[mu] - 1) in Ecp by (unfold s1; ring). 
  replace (1 - 2 * s2) with (2 * side y.[nu] - 1) in Ecp by (unfold s2; ring). fold rc' in Ecp.
  assert (Epm : peer m = rankOfCoords g rc'). { rewrite <- Ecp. symmetry. now apply rank_coord_box. }
  set (b := fullLxOfCoords g o - locVol g - bordVol g).
  assert (Hb : 0 <= b < edgeVol g).
  { pose proof (fullLx_region g Hv o Heo' ltac:(lia)) as R. cbn zeta in R. unfold b. clear -R Hno V0 V1 V2. lia. }
  replace (off (edge_msg g (coordOfRank g (peer m)) 2 ie s1 s2 s1 s2) + (e - (locVolh g + bordVolh g) - off m)) with (b / 2).
  2:{ destruct (edge_half ie s1 s2 s1 s2 (coordOfRank g (peer m)) Hie) as [C1 _].
      assert (C0 : off (edge_msg g (coordOfRank g (peer m)) 1 ie s1 s2 s1 s2) = edge_offset g ie + Z.quot (edgeVol g * (s2 + 2 * s1)) 4).
      { unfold edge_msg. cbn [off]. now rewrite Z.quot_1_r. }
      rewrite C0 in C1. rewrite Hso, Hso2, Hbx in Efo. fold s1 s2 in Efo. rewrite Ei in Efy. unfold b.
      generalize dependent (off (edge_msg g (coordOfRank g (peer m)) 2 ie s1 s2 s1 s2)). intros cs C1.
      revert C1 Hoff Efo Efy Ehalf HLh HBh. clear. 
      generalize (Z.quot (edgeVol g * (s2 + 2 * s1)) 4), (Z.quot (edgeVol g * (side y.[nu] + 2 * side y.[mu])) 4). 
      intros. lia. }
  rewrite Epm. unfold sb, fill_send, rank_eo, rank_labels. rewrite Ec.
  pose proof (Hsurf0 rc' (sched (rankOfCoords g rc')) o ie Hrc' (Hs _ Hr') Heo' Hno Hie) as Esf. rewrite <- Emu, <- Enu in Esf.
  specialize (Esf Hino Hino'). fold b in Esf.
  unfold surfeo_of_edgeo.
  rewrite (surfeo_spec g Hv Heo rc' Hrc' _ (sfof (findSurfOfEdges g rc' (label_all_sites g rc') (sched (rankOfCoords g rc'))))
     (locVol g + bordVol g) (locVolh g + bordVolh g) (edgeVol g) (fun x => x) par b).
  - unfold sfof. rewrite Esf. reflexivity.
  - lia.
  - unfold totVol. lia.
  - lia.
  - intros c Hc. apply surf_edge_par; auto.
  - intros x z H. exact H.
  - exact Hb.
  - unfold sfof. rewrite Esf. exact Hpp.
Qed.
End G.
