(** The staples computed by the ranks are those of the periodic lattice. *)
From Verif Require Import Base GeometryModel GeometrySpec GeometryProofs OwnerProofs FullLxProofs
  FullLxMain LabelProofs NeighProofs GeoMiscModel GeoMiscProofs HaloModel HaloProofs EdgeProofs Geometry_final StapleModel StapleSpec.

(** *** loops *)
Lemma fold_keep {S B} (f : S -> B -> S) (P : S -> Prop) L s : (forall s b, In b L -> P s -> P (f s b)) -> P s -> P (fold_left f L s).
Proof.
  revert s. induction L as [|b L IH]; intros s H H0; cbn; [exact H0|]. apply IH; [intros; apply H; [now right|assumption]|]. apply H; [now left|exact H0].
Qed.
Lemma fold_gets {S B} (f : S -> B -> S) (P : S -> Prop) L s b : (forall s c, In c L -> P s -> P (f s c)) -> In b L -> (forall s, P (f s b)) -> P (fold_left f L s).
Proof.
  intros H Hb H0. revert s H. induction L as [|c L IH]; intros s H; [destruct Hb|]. cbn. destruct Hb as [->|Hb].
  - apply fold_keep; [intros; apply H; [now right|assumption]|apply H0].
  - apply IH; [exact Hb|]. intros; apply H; [now right|assumption].
Qed.

Definition all_orders (ord : Z -> nat -> nat -> nat -> Z -> Z -> list Z) : Prop :=
  forall r l a b lo hi, NoDup (ord r l a b lo hi) /\ forall i, In i (ord r l a b lo hi) <-> lo <= i < hi.

Lemma loop2_keep {S} L M (body : nat -> nat -> S -> S) (P : S -> Prop) s :
  (forall a b s, In a L -> In b M -> P s -> P (body a b s)) -> P s -> P (loop2 L M body s).
Proof. intros H H0. unfold loop2. apply fold_keep; [|exact H0]. intros s' [a b] Hin. apply in_prod_iff in Hin as [Ha Hb]. cbn [fst snd]. now apply H. Qed.
Lemma loop2_gets {S} L M (body : nat -> nat -> S -> S) (P : S -> Prop) s a b :
  (forall a b s, In a L -> In b M -> P s -> P (body a b s)) -> In a L -> In b M -> (forall s, P (body a b s)) -> P (loop2 L M body s).
Proof.
  intros H Ha Hb H0. unfold loop2. apply fold_gets with (a, b); [|now apply in_prod|intros; apply H0].
  intros s' [c d] Hin. apply in_prod_iff in Hin as [Hc Hd]. cbn [fst snd]. now apply H.
Qed.
Section Par.
Context (ord : Z -> nat -> nat -> nat -> Z -> Z -> list Z) (Ho : all_orders ord).
Lemma PAR_keep {S} r l a b lo hi (body : Z -> S -> S) (P : S -> Prop) s :
  (forall i s, lo <= i < hi -> P s -> P (body i s)) -> P s -> P (PAR ord r l a b lo hi body s).
Proof. intros H H0. unfold PAR. apply fold_keep; [|exact H0]. intros s' i Hi. apply H. now apply (Ho r l a b lo hi). Qed.
Lemma PAR_gets {S} r l a b lo hi (body : Z -> S -> S) (P : S -> Prop) s i :
  (forall i s, lo <= i < hi -> P s -> P (body i s)) -> lo <= i < hi -> (forall s, P (body i s)) -> P (PAR ord r l a b lo hi body s).
Proof.
  intros H Hi H0. unfold PAR. apply fold_gets with i; [|now apply (Ho r l a b lo hi)|exact H0]. intros s' j Hj. apply H. now apply (Ho r l a b lo hi).
Qed.
End Par.

(** *** geometry *)
Section G.
Context (g : grid) (Hv : valid_grid g = true).
Definition gc (r i : Z) (x : list Z) : Prop := glbCoordOfLoclx (rank_labels g r) i = Some x.

(** a border site of given orientation and direction *)
Lemma bord_site mu ori b : (mu < 4)%nat -> (ori = 0 \/ ori = 1) -> bordOffset g mu <= b < bordOffset g mu + bordDirVol g mu ->
  exists y, ext_site g y /\ n_out g y = 1%nat /\ inside g y mu = false /\ side y.[mu] = ori /\ fullLxOfCoords g y = locVol g + (bordVolh g * ori + b).
Proof.
  intros Hmu Hori Hb. pose proof (vols_nonneg g Hv) as (V0 & V1 & V2).
  assert (R : 0 <= b < bordVolh g).
  { pose proof (sizes_nonneg g Hv) as Hs. rewrite (sizes_explicit g Hv) in Hs. cbn [map app] in Hs.
    apply Forall_inv_tail in Hs. pose proof (Forall_inv Hs) as B0. apply Forall_inv_tail in Hs. pose proof (Forall_inv Hs) as B1.
    apply Forall_inv_tail in Hs. pose proof (Forall_inv Hs) as B2. apply Forall_inv_tail in Hs. pose proof (Forall_inv Hs) as B3. clear Hs. cbv beta in *.
    rewrite bordVolh_eq. destruct mu as [|[|[|[|]]]]; [| | | |exfalso; clear -Hmu; lia]; cbn [bordOffset] in Hb; clear -B0 B1 B2 B3 Hb; lia. }
  assert (V : bordVol g = 2 * bordVolh g) by reflexivity.
  assert (Hi : locVol g <= locVol g + (bordVolh g * ori + b) < locVol g + bordVol g) by (destruct Hori as [-> | ->]; lia).
  destruct (fullLx_onto g Hv (locVol g + (bordVolh g * ori + b)) ltac:(clear -Hi V0 V1 V2; lia)) as (y & He & Hn2 & Ei).
  assert (Hn : n_out g y = 1%nat).
  { pose proof (fullLx_region g Hv y He Hn2) as Q. cbn zeta in Q. rewrite Ei in Q. clear -Q Hi V1 V2. lia. }
  destruct (find_out g Hv y Hn) as (nu & Hnu & Hin). destruct (fullLx_bord g Hv y nu He Hn Hnu Hin) as [Efy Bfy].
  assert (Hs : side y.[nu] = 0 \/ side y.[nu] = 1) by (unfold side; destruct (_ =? _); auto).
  destruct (halo_ranges g Hv 1 mu (1 - ori) nu (1 - side y.[nu]) Hmu Hnu ltac:(lia) ltac:(lia) eq_refl (bordVolh g * ori + b)) as [E1 E2].
  { unfold covers, halo_msg. cbn [off len]. rewrite !Z.quot_1_r. replace (1 - (1 - ori)) with ori by ring. lia. }
  { unfold covers, halo_msg. cbn [off len]. rewrite !Z.quot_1_r. replace (1 - (1 - side y.[nu])) with (side y.[nu]) by ring. lia. }
  subst nu. exists y. repeat split; try assumption; try apply He; lia.
Qed.
Lemma bord_range mu : (mu < 4)%nat -> 0 <= bordOffset g mu /\ bordOffset g mu + bordDirVol g mu <= bordVolh g.
Proof.
  intros Hmu. pose proof (sizes_nonneg g Hv) as Hs. rewrite (sizes_explicit g Hv) in Hs. cbn [map app] in Hs.
  apply Forall_inv_tail in Hs. pose proof (Forall_inv Hs) as B0. apply Forall_inv_tail in Hs. pose proof (Forall_inv Hs) as B1.
  apply Forall_inv_tail in Hs. pose proof (Forall_inv Hs) as B2. apply Forall_inv_tail in Hs. pose proof (Forall_inv Hs) as B3. clear Hs. cbv beta in *.
  rewrite bordVolh_eq. destruct mu as [|[|[|[|]]]]; [| | | |exfalso; clear -Hmu; lia]; cbn [bordOffset]; clear -B0 B1 B2 B3; lia.
Qed.
Lemma bord_dir b : 0 <= b < bordVolh g -> exists mu, (mu < 4)%nat /\ bordOffset g mu <= b < bordOffset g mu + bordDirVol g mu.
Proof.
  intros Hb. rewrite bordVolh_eq in Hb. 
  destruct (Z_lt_ge_dec b (bordOffset g 1)) as [H|H]; [exists 0%nat; cbn [bordOffset] in *; lia|].
  destruct (Z_lt_ge_dec b (bordOffset g 2)) as [H2|H2]; [exists 1%nat; cbn [bordOffset] in *; lia|].
  destruct (Z_lt_ge_dec b (bordOffset g 3)) as [H3|H3]; [exists 2%nat; cbn [bordOffset] in *; lia|].
  exists 3%nat; cbn [bordOffset] in *; lia.
Qed.

Section R.
Context (r : Z) (Hr : 0 <= r < nranks g).
Let rc := coordOfRank g r.
Lemma rc_ok : in_box rc (nRanksDir g). Proof. apply (rank_coord_box g Hv r Hr). Qed.
Lemma gc_loc i : 0 <= i < locVol g -> exists x, gc r i x /\ in_box x (glbSize g).
Proof.
  intros Hi. pose proof (vols_nonneg g Hv) as (V0 & V1 & V2). destruct (tables_main g rc Hv rc_ok i ltac:(lia)) as (y & _ & _ & _ & E & Hb & _). eexists. split; [exact E|exact Hb].
Qed.
Lemma gc_box i x : 0 <= i < locVol g + bordVol g -> gc r i x -> in_box x (glbSize g).
Proof.
  intros Hi E. pose proof (vols_nonneg g Hv) as (V0 & V1 & V2). destruct (tables_main g rc Hv rc_ok i ltac:(lia)) as (y & _ & _ & _ & E' & Hb & _).
  unfold gc, rank_labels in E. fold rc in E. rewrite E in E'. injection E' as ->. exact Hb.
Qed.
(** the upper neighbour of a local site is a local site or a site of the forward border *)
Definition here (i : Z) : Prop := 0 <= i < locVol g \/ locVol g + bordVolh g <= i < locVol g + bordVol g.
Lemma up_nb A mu : 0 <= A < locVol g -> (mu < 4)%nat ->
  exists x B, nb g r A mu = Some B /\ here B /\ gc r A x /\ in_box x (glbSize g) /\ gc r B (step (glbSize g) x mu).
Proof.
  intros HA Hmu. pose proof (vols_nonneg g Hv) as (V0 & V1 & V2).
  destruct (neighbours_main g rc Hv rc_ok) as [N1 N2]. destruct (N1 A mu true ltac:(lia) Hmu) as (x & B & E1 & E2 & H).
  destruct (N2 A mu true HA Hmu) as (B' & E3 & RB & _). rewrite E2 in E3. injection E3 as <-.
  destruct H as [[-> ?]|[_ E4]]; [lia|]. exists x, B. split; [exact E2|]. split; [|repeat split; try assumption; apply (gc_box A x); [lia|assumption]].
  destruct (Z_lt_ge_dec B (locVol g)) as [|HB]; [left; lia|right].
  (* forward *)
  destruct (loc_true_glb g Hv rc A rc_ok HA) as (_ & _ & He & Hn & Ei). set (y := coordOfLx A (locSize g)) in *.
  rewrite <- Ei in E2. rewrite (neigh_eq g Hv rc y mu true rc_ok He ltac:(lia) Hmu) in E2. cbn [dsgn] in E2. injection E2 as E2.
  assert (K : nfw_at g mu y.[mu] = false).
  { apply not_true_is_false. intros K. pose proof (local_step g Hv rc A mu true B rc_ok HA Hmu) as L. cbv iota in L. fold y in L.
    rewrite <- Ei in L at 1. rewrite (neigh_eq g Hv rc y mu true rc_ok He ltac:(lia) Hmu) in L. cbn [dsgn] in L. rewrite E2 in L. apply (proj2 (L eq_refl)) in K. lia. }
  unfold nfw_at in K.
  assert (Hp : isDirParallel g mu = true) by (destruct (isDirParallel g mu); [reflexivity|cbn in K; discriminate]).
  assert (Ey : y.[mu] = (locSize g).[mu] - 1) by (rewrite Hp in K; cbn in K; apply negb_false_iff, Z.eqb_eq in K; exact K).
  set (z := move y mu 1) in *. destruct (dir_facts g Hv mu Hmu) as (Hloc & _).
  assert (Ez : z.[mu] = (locSize g).[mu]) by (unfold z, move; rewrite nth_upd_eq by (rewrite (proj1 He); exact Hmu); lia).
  assert (Hz : ext_site g z). { apply (ext_upd g); auto. unfold isDirParallel in Hp. rewrite Hp. lia. }
  assert (Hin : inside g z mu = false) by (unfold inside; rewrite Ez; lia).
  assert (Hn1 : n_out g z = 1%nat).
  { destruct (fullLx_region g Hv z Hz) as [[? ?]|[[? ?]|[? ?]]]; try lia.
    pose proof (n_out_move_le g Hv y mu 1 (proj1 He) Hmu) as L. fold z in L. lia. }
  destruct (fullLx_bord g Hv z mu Hz Hn1 Hmu Hin) as [Ef Bf]. pose proof (bord_range mu Hmu) as [Q1 Q2].
  unfold side in Ef. rewrite Ez in Ef. replace ((locSize g).[mu] =? -1) with false in Ef by lia.
  rewrite <- E2. unfold bordVol in RB |- *. lia.
Qed.
(** the sites of the lower surface and their label in the border *)
Lemma lower_surface (surf_sched : Z -> list Z) mu b : (forall i, In i (surf_sched r) <-> 0 <= i < locVol g) ->
  (mu < 4)%nat -> isDirParallel g mu = true -> bordOffset g mu <= b < bordOffset g mu + bordDirVol g mu ->
  exists s x, surflxOfBordlx g surf_sched r b = Some s /\ 0 <= s < locVol g /\ gc r s x /\ in_box x (glbSize g) /\
    (forall q, 0 <= q < nranks g -> coordOfRank g q = nshift g rc mu (-1) -> gc q (locVol g + (bordVolh g + b)) x).
Proof.
  intros Hs Hmu Hp Hb. destruct (bord_site mu 0 b Hmu ltac:(auto) Hb) as (y & He & Hn & Hin & Hsd & Ei).
  destruct (bord_pair g Hv y mu He Hn Hmu Hin) as (Hes & Hn0 & Hbx & Ef & Ey & Ec). pose proof (proj1 He) as Hl.
  pose proof (lxOfCoord_bounds _ _ Hbx) as Hbd. rewrite <- (locVol_prod g Hv) in Hbd. change (lxOfCoord (pull g y mu) (locSize g)) with (loclxOfCoord g (pull g y mu)) in Hbd.
  exists (loclxOfCoord g (pull g y mu)), (true_glb g rc (pull g y mu)).
  split. { unfold surflxOfBordlx, rank_labels. fold rc. replace b with (fullLxOfCoords g y - locVol g) by lia. apply (surf_bord g Hv); auto using rc_ok. }
  split; [exact Hbd|].
  assert (E : gc r (loclxOfCoord g (pull g y mu)) (true_glb g rc (pull g y mu))).
  { unfold gc, rank_labels. fold rc. rewrite <- Ef. apply (label_spec g Hv rc (pull g y mu) rc_ok Hes). lia. }
  split; [exact E|]. pose proof (vols_nonneg g Hv) as (V0 & V1 & V2). split; [apply (gc_box (loclxOfCoord g (pull g y mu))); [lia|exact E]|].
  intros q Hq Eq. destruct (bord_owner g Hv rc y mu rc_ok He Hn Hmu Hin) as (Heo & Hno & Hino & Hso & Hbxo & _).
  assert (Ey1 : y.[mu] = -1) by (unfold side in Hsd; destruct (Z.eqb_spec y.[mu] (-1)); [assumption|discriminate]).
  rewrite Ey1 in Heo, Hno, Hino, Hso, Hbxo. cbn [Z.eqb Pos.eqb] in *. set (o := upd y mu (locSize g).[mu]) in *.
  destruct (fullLx_bord g Hv y mu He Hn Hmu Hin) as [Efy _]. destruct (fullLx_bord g Hv o mu Heo Hno Hmu Hino) as [Efo _].
  rewrite Hso in Efo. rewrite Ey1 in Efy. unfold side in Efo, Efy. cbn [Z.eqb Pos.eqb] in Efo, Efy.
  replace (locVol g + (bordVolh g + b)) with (fullLxOfCoords g o) by (rewrite Efo, Hbxo; lia).
  destruct (rank_coord_box g Hv q Hq) as [Hqc _]. unfold gc, rank_labels. rewrite (proj1 (label_spec g Hv (coordOfRank g q) o Hqc Heo ltac:(lia))). f_equal.
  rewrite Eq. rewrite (true_glb_shift g Hv rc (pull g y mu) mu (-1) rc_ok (proj1 Hes) Hmu). f_equal.
  unfold pull. rewrite Ey1. cbn [Z.eqb Pos.eqb]. rewrite nth_upd_eq by (rewrite Hl; exact Hmu). rewrite upd_upd. unfold o. f_equal. ring.
Qed.
End R.

(** *** exchange of one orientation *)
Lemma asked_eq ori mu so : (mu < 4)%nat -> asked (dir_comm ori) g (mu, so) = isDirParallel g mu && (ori =? so).
Proof.
  intros Hmu. unfold asked, dir_comm. cbn [existsb fst snd]. f_equal.
  destruct mu as [|[|[|[|]]]]; [| | | |exfalso; clear -Hmu; lia]; cbn [Nat.eqb]; destruct (ori =? so); reflexivity.
Qed.
Lemma exchange_ok {T} (ori : Z) (sb : Z -> @qfield T) r : (ori = 0 \/ ori = 1) -> 0 <= r < nranks g ->
  exists rb, exchange g ori sb r = Some rb /\
    forall mu b, (mu < 4)%nat -> isDirParallel g mu = true -> bordOffset g mu <= b < bordOffset g mu + bordDirVol g mu ->
      exists q, 0 <= q < nranks g /\ coordOfRank g q = nshift g (coordOfRank g r) mu (1 - 2 * ori) /\
        forall k, rb (bordVolh g * (1 - ori) + b) k = sb q (bordVolh g * ori + b) k.
Proof.
  intros Hori Hr. unfold exchange.
  destruct (recv_all_spec (fun q => halo_sends_dirs (dir_comm ori) g (coordOfRank g q) 1) (fun q i => Some (sb q i)) r
    (fun m => halo_msg g (coordOfRank g (peer m)) 1 (Z.to_nat (tag m / 2)) ori ori)
    (halo_recvs_dirs (dir_comm ori) g (coordOfRank g r) 1)) as (rb & E & Hrb).
  { intros m Hm. unfold halo_recvs_dirs in Hm. apply in_map_iff in Hm as ([mu so] & <- & Hin).
    apply filter_In in Hin as [Hin Hp]. apply halo_loop_in in Hin as [Hmu Hso].
    rewrite (asked_eq ori mu so Hmu) in Hp. apply andb_prop in Hp as [Hp Eo]. apply Z.eqb_eq in Eo. subst so.
    set (m := halo_msg g (coordOfRank g r) 1 mu ori (1 - ori)).
    assert (Et : Z.to_nat (tag m / 2) = mu).
    { unfold m, halo_msg. cbn [tag]. replace ((ori + 2 * Z.of_nat mu) / 2) with (Z.of_nat mu) by (clear -Hso; apply Z.div_unique with ori; lia). apply Nat2Z.id. }
    rewrite Et. split; [|reflexivity].
    destruct (halo_match g Hv r 1 mu ori Hr Hmu Hso Hp) as (Hf & Ec & Hq). fold m in Hf, Ec, Hq.
    unfold halo_sends_dirs.
    apply (filter_unique (fun '(mu0, sendOri) => halo_msg g (coordOfRank g (peer m)) 1 mu0 sendOri sendOri)
      (fun s => (peer s =? r) && (tag s =? tag m)) (asked (dir_comm ori) g) halo_loop (mu, ori)).
    - exact halo_loop_nodup.
    - now apply halo_loop_in.
    - rewrite asked_eq by exact Hmu. rewrite Hp, Z.eqb_refl. reflexivity.
    - assert (In (halo_msg g (coordOfRank g (peer m)) 1 mu ori ori) (filter (fun s => (peer s =? r) && (tag s =? tag m)) (halo_sends g (coordOfRank g (peer m)) 1))) as Hi
        by (rewrite Hf; now left). apply filter_In in Hi as [_ Hi]. exact Hi.
    - intros [mu' so'] Hin' _ Hc. apply halo_loop_in in Hin' as [Hmu' Hso']. apply andb_prop in Hc as [_ Hc]. unfold m, halo_msg in Hc. cbn [tag] in Hc.
      clear -Hc Hso Hso'. f_equal; lia. }
  rewrite E. cbn [option_map]. eexists. split; [reflexivity|].
  intros mu b Hmu Hp Hb. destruct (halo_match g Hv r 1 mu ori Hr Hmu Hori Hp) as (_ & Ec & Hq). set (m := halo_msg g (coordOfRank g r) 1 mu ori (1 - ori)) in *.
  exists (peer m). split; [exact Hq|]. split; [exact Ec|]. intros k.
  rewrite (Hrb m (bordVolh g * (1 - ori) + b)).
  - assert (Et : Z.to_nat (tag m / 2) = mu).
    { unfold m, halo_msg. cbn [tag]. replace ((ori + 2 * Z.of_nat mu) / 2) with (Z.of_nat mu) by (clear -Hori; apply Z.div_unique with ori; lia). apply Nat2Z.id. }
    rewrite Et. cbn [off]. f_equal. unfold m, halo_msg. cbn [off]. rewrite !Z.quot_1_r. ring.
  - unfold halo_recvs_dirs. apply in_map_iff. exists (mu, ori). split; [reflexivity|]. apply filter_In. split; [now apply halo_loop_in|].
    rewrite asked_eq by exact Hmu. rewrite Hp, Z.eqb_refl. reflexivity.
  - unfold covers, m, halo_msg. cbn [off len]. rewrite !Z.quot_1_r. lia.
  - intros m' Hm' Hc'. unfold halo_recvs_dirs in Hm'. apply in_map_iff in Hm' as ([mu' so2] & <- & Hin').
    apply filter_In in Hin' as [Hin' _]. apply halo_loop_in in Hin' as [Hmu' Hso2].
    destruct (halo_ranges g Hv 1 mu ori mu' so2 Hmu Hmu' Hori Hso2 eq_refl (bordVolh g * (1 - ori) + b)) as [-> ->]; [|exact Hc'|reflexivity].
    unfold covers, halo_msg. cbn [off len]. rewrite !Z.quot_1_r. lia.
Qed.
End G.
