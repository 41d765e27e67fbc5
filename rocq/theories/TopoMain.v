(** The remapping used for the topological correlator, and the list of links to be gathered *)
From Verif Require Import Base GeometryModel GeometrySpec GeometryProofs OwnerProofs LabelProofs HaloProofs Geometry_final
  AllToAllModel AllToAllSpec AllToAllMain AllToAllSetup AllToAllRemap IldgModel IldgProofs RemapMain.

Lemma fold_add_seqZ (f : Z -> Z) n : 0 <= n -> fold_left (fun a i => a + f i) (seqZ (n + 1)) 0 = fold_left (fun a i => a + f i) (seqZ n) 0 + f n.
Proof.
  intros Hn. unfold seqZ. replace (Z.to_nat (n + 1)) with (Z.to_nat n + 1)%nat by lia.
  rewrite seq_app, map_app, fold_left_app. cbn [seq map fold_left]. f_equal. f_equal. lia.
Qed.

Section Topo.
Context (g : grid) (Hv : valid_grid g = true) (Hf : glb_fits_int g).
Hypothesis Heven : forall mu, (mu < 4)%nat -> Z.even (glbSize g).[mu] = true.

Lemma sizes mu : (mu < 4)%nat -> subcube_size g mu 0 + subcube_size g mu 1 = (glbSize g).[mu] /\ 2 <= subcube_size g mu 0 /\ 0 <= subcube_size g mu 1.
Proof.
  intros Hmu. unfold subcube_size. cbn [Z.eqb]. 
  assert (HG : 2 <= (glbSize g).[mu]).
  { destruct (valid_grid_inv g Hv) as (n0&n1&n2&n3&l0&l1&l2&l3&->&_&?&?). cbn [glbSize]. destruct mu as [|[|[|[|m]]]]; [| | | |lia]; cbn [nth]; nia. }
  rewrite Z.quot_div_nonneg by lia. specialize (Heven mu Hmu). apply Z.even_spec in Heven. destruct Heven as [h Eh]. rewrite Eh in *.
  rewrite Z.mul_comm, Z.div_mul by lia. change (1 =? 0) with false. cbv iota. lia.
Qed.

Definition tk (x : list Z) (mu : nat) : Z := subcube_coord g x mu.
Definition ty (x : list Z) (mu : nat) : Z := x.[mu] - tk x mu * subcube_size g mu 0.
Definition ts (x : list Z) (mu : nat) : Z := subcube_size g mu (tk x mu).
Definition tsub (x : list Z) : Z := ((tk x 0 * 2 + tk x 1) * 2 + tk x 2) * 2 + tk x 3.
Definition tel (x : list Z) : Z := ((ty x 0 * ts x 1 + ty x 1) * ts x 2 + ty x 2) * ts x 3 + ty x 3.

Lemma tk_01 x mu : tk x mu = 0 \/ tk x mu = 1. Proof. unfold tk, subcube_coord. destruct (_ <=? _); tauto. Qed.
Lemma ty_rng x mu : in_box x (glbSize g) -> (mu < 4)%nat -> 0 <= ty x mu < ts x mu /\ ts x mu <= (glbSize g).[mu].
Proof.
  intros Hx Hmu. apply in_box_nth in Hx as [_ Hx]. rewrite (glb_len g Hv) in Hx. specialize (Hx mu Hmu).
  destruct (sizes mu Hmu) as (E & H0 & H1). unfold ty, ts, tk, subcube_coord.
  destruct (Z.leb_spec (subcube_size g mu 0) x.[mu]); lia.
Qed.
Lemma tsub_coord x : coordOfLx (tsub x) [2;2;2;2] = [tk x 0; tk x 1; tk x 2; tk x 3].
Proof.
  unfold tsub. destruct (tk_01 x 0) as [-> | ->], (tk_01 x 1) as [-> | ->], (tk_01 x 2) as [-> | ->], (tk_01 x 3) as [-> | ->]; reflexivity.
Qed.
Lemma tsub_vol x : subcube_vol g (tsub x) = ts x 0 * ts x 1 * ts x 2 * ts x 3.
Proof. unfold subcube_vol. rewrite tsub_coord. cbn [dirs fold_left nth]. unfold ts. ring. Qed.
Lemma tsub_rng x : 0 <= tsub x < 16.
Proof. unfold tsub. destruct (tk_01 x 0) as [-> | ->], (tk_01 x 1) as [-> | ->], (tk_01 x 2) as [-> | ->], (tk_01 x 3) as [-> | ->]; lia. Qed.
Lemma tel_rng x : in_box x (glbSize g) -> 0 <= tel x < subcube_vol g (tsub x).
Proof.
  intros Hx. rewrite tsub_vol. unfold tel.
  destruct (ty_rng x 0 Hx) as [A _]; [lia|]. destruct (ty_rng x 1 Hx) as [B _]; [lia|]. destruct (ty_rng x 2 Hx) as [C _]; [lia|]. destruct (ty_rng x 3 Hx) as [D _]; [lia|].
  assert (0 <= ty x 0 * ts x 1 + ty x 1 < ts x 0 * ts x 1) by nia.
  assert (0 <= (ty x 0 * ts x 1 + ty x 1) * ts x 2 + ty x 2 < ts x 0 * ts x 1 * ts x 2) by nia. nia.
Qed.
Lemma vol_nonneg k : 0 <= k < 16 -> 0 <= subcube_vol g k.
Proof.
  intros Hk. unfold subcube_vol. cbn [dirs fold_left].
  assert (H : forall mu z, (mu < 4)%nat -> 0 <= subcube_size g mu z).
  { intros mu z Hmu. destruct (sizes mu Hmu) as (_ & H0 & H1). unfold subcube_size in *. change (1 =? 0) with false in H1. change (0 =? 0) with true in H0. destruct (z =? 0); lia. }
  repeat apply Z.mul_nonneg_nonneg; try lia; apply H; lia.
Qed.
Lemma minind_succ k : 0 <= k -> minind_cube_vol g (k + 1) = minind_cube_vol g k + subcube_vol g k.
Proof. intros Hk. unfold minind_cube_vol. now apply fold_add_seqZ. Qed.
Lemma minind_mono a b : 0 <= a -> a <= b <= 16 -> minind_cube_vol g a <= minind_cube_vol g b.
Proof.
  intros Ha [Hab Hb]. rewrite <- (Zplus_minus a b). generalize (Zle_minus_le_0 _ _ Hab). intros Hd. 
  assert (Hb' : a + (b - a) <= 16) by lia. revert Hb'. clear Hab Hb. revert Hd. generalize (b - a). clear b. intros d Hd. revert d Hd.
  apply (natlike_ind (fun d => a + d <= 16 -> minind_cube_vol g a <= minind_cube_vol g (a + d))).
  - intros _. rewrite Z.add_0_r. lia.
  - intros d Hd IH H. unfold Z.succ in *. rewrite Z.add_assoc, minind_succ by lia. pose proof (vol_nonneg (a + d)). lia.
Qed.
Lemma minind_16 : minind_cube_vol g 16 = prodZ (glbSize g).
Proof.
  unfold minind_cube_vol. change (seqZ 16) with [0;1;2;3;4;5;6;7;8;9;10;11;12;13;14;15]. cbn [fold_left].
  unfold subcube_vol. cbn [dirs fold_left].
  repeat match goal with |- context [coordOfLx ?k [2;2;2;2]] => let v := eval vm_compute in (coordOfLx k [2;2;2;2]) in change (coordOfLx k [2;2;2;2]) with v end.
  cbn [nth]. destruct (sizes 0) as (E0 & _); [lia|]. destruct (sizes 1) as (E1 & _); [lia|]. destruct (sizes 2) as (E2 & _); [lia|]. destruct (sizes 3) as (E3 & _); [lia|].
  destruct (length4 _ (glb_len g Hv)) as (G0 & G1 & G2 & G3 & EG). rewrite EG, prodZ4 in *. cbn [nth] in *. rewrite <- E0, <- E1, <- E2, <- E3. ring.
Qed.
Definition tpos (x : list Z) : Z := tel x + minind_cube_vol g (tsub x).
Lemma tpos_rng x : in_box x (glbSize g) -> 0 <= tpos x < prodZ (glbSize g).
Proof.
  intros Hx. pose proof (tel_rng x Hx). pose proof (tsub_rng x). unfold tpos. rewrite <- minind_16.
  pose proof (minind_mono 0 (tsub x)). pose proof (minind_mono (tsub x + 1) 16). rewrite minind_succ in * by lia. change (minind_cube_vol g 0) with 0 in *. lia.
Qed.
Lemma tpos_inj x y : in_box x (glbSize g) -> in_box y (glbSize g) -> tpos x = tpos y -> x = y.
Proof.
  intros Hx Hy E. pose proof (tel_rng x Hx) as Tx. pose proof (tel_rng y Hy) as Ty. pose proof (tsub_rng x). pose proof (tsub_rng y). unfold tpos in E.
  assert (Es : tsub x = tsub y).
  { destruct (Z.lt_trichotomy (tsub x) (tsub y)) as [Hlt|[->|Hlt]]; [exfalso| reflexivity|exfalso].
    - pose proof (minind_mono (tsub x + 1) (tsub y)). rewrite minind_succ in * by lia. lia.
    - pose proof (minind_mono (tsub y + 1) (tsub x)). rewrite minind_succ in * by lia. lia. }
  rewrite Es in E. assert (Ee : tel x = tel y) by lia. 
  assert (Ek : forall mu, (mu < 4)%nat -> tk x mu = tk y mu).
  { pose proof (f_equal (fun s => coordOfLx s [2;2;2;2]) Es) as H1. cbv beta in H1. rewrite !tsub_coord in H1. injection H1 as K0 K1 K2 K3.
    intros mu Hmu. destruct mu as [|[|[|[|m]]]]; [assumption..|lia]. }
  assert (Hs : forall mu, (mu < 4)%nat -> ts x mu = ts y mu) by (intros mu Hmu; unfold ts; now rewrite Ek).
  assert (Ey : [ty x 0; ty x 1; ty x 2; ty x 3] = [ty y 0; ty y 1; ty y 2; ty y 3]).
  { apply (row_major_inj [ts x 0; ts x 1; ts x 2; ts x 3]).
    - apply in_box4. repeat split; apply ty_rng; try assumption; lia.
    - rewrite !Hs by lia. apply in_box4. repeat split; apply ty_rng; try assumption; lia.
    - unfold tel in Ee. rewrite <- !Hs in Ee by lia. cbn [row_major prodZ fold_right]. lia. }
  injection Ey as Y0 Y1 Y2 Y3. unfold ty in *. rewrite !Ek in * by lia.
  apply list_eq_nth; [now rewrite (in_box_length _ _ Hx), (in_box_length _ _ Hy)|].
  intros m Hm. rewrite (in_box_length _ _ Hy), (glb_len g Hv) in Hm. destruct m as [|[|[|[|m]]]]; lia.
Qed.
Lemma topo_fold x : in_box x (glbSize g) -> fold_left (topo_step g x) dirs (Some (0, 0)) = Some (tsub x, tel x).
Proof.
  intros Hx. pose proof (tel_rng x Hx) as Ht. rewrite tsub_vol in Ht.
  destruct (ty_rng x 0 Hx) as [A A']; [lia|]. destruct (ty_rng x 1 Hx) as [B B']; [lia|]. destruct (ty_rng x 2 Hx) as [C C']; [lia|]. destruct (ty_rng x 3 Hx) as [D D']; [lia|].
  assert (P1 : 0 <= ty x 0 * ts x 1 + ty x 1 < ts x 0 * ts x 1) by nia.
  assert (P2 : 0 <= (ty x 0 * ts x 1 + ty x 1) * ts x 2 + ty x 2 < ts x 0 * ts x 1 * ts x 2) by nia.
  assert (Hle : ts x 0 * ts x 1 * ts x 2 * ts x 3 <= int_max + 1).
  { unfold glb_fits_int in Hf. destruct (length4 _ (glb_len g Hv)) as (G0 & G1 & G2 & G3 & EG). rewrite EG, prodZ4 in *. cbn [nth] in *.
    transitivity (G0*G1*G2*G3); [|assumption]. repeat apply Z.mul_le_mono_nonneg; try lia; nia. }
  cbn [dirs fold_left]. unfold topo_step. fold (tk x 0) (tk x 1) (tk x 2) (tk x 3). fold (ts x 0) (ts x 1) (ts x 2) (ts x 3). fold (ty x 0) (ty x 1) (ty x 2) (ty x 3).
  unfold tsub, tel in *. cbn [Z.mul Z.add].
  set (v1 := ty x 0 * ts x 1) in *. set (v2 := (v1 + ty x 1) * ts x 2) in *. set (v3 := (v2 + ty x 2) * ts x 3) in *.
  set (S1 := ts x 0 * ts x 1) in *. set (S2 := S1 * ts x 2) in *. set (S3 := S2 * ts x 3) in *.
  assert (0 <= v1) by (unfold v1; nia). assert (0 <= v2) by (unfold v2; nia). assert (0 <= v3) by (unfold v3; nia).
  assert (ts x 0 <= S1) by (unfold S1; nia). assert (S1 <= S2) by (unfold S2; nia). assert (S2 <= S3) by (unfold S3; nia).
  replace (in_int 0 && in_int (ty x 0)) with true by (unfold in_int, int_min, int_max in *; lia). cbv iota beta. fold v1.
  replace (in_int v1 && in_int (v1 + ty x 1)) with true by (unfold in_int, int_min, int_max in *; lia). cbv iota beta. fold v2.
  replace (in_int v2 && in_int (v2 + ty x 2)) with true by (unfold in_int, int_min, int_max in *; lia). cbv iota beta. fold v3.
  replace (in_int v3 && in_int (v3 + ty x 3)) with true by (unfold in_int, int_min, int_max in *; lia). reflexivity.
Qed.

Theorem topo_main :
  (forall r i, 0 <= r < nranks g -> 0 <= i < locVol g ->
     exists q j, index_to_topo g r i = Some (q, j) /\ 0 <= q < nranks g /\ 0 <= j < locVol g) /\
  (forall r i r' i' p, 0 <= r < nranks g -> 0 <= i < locVol g -> 0 <= r' < nranks g -> 0 <= i' < locVol g ->
     index_to_topo g r i = Some p -> index_to_topo g r' i' = Some p -> r = r' /\ i = i') /\
  (forall r i x, 0 <= r < nranks g -> 0 <= i < locVol g -> glb_coords g r i = Some x ->
     (forall mu, (mu < 4)%nat -> x.[mu] <= (glbSize g).[mu] / 2) ->
     exists q j, index_to_topo g r i = Some (q, j) /\
       q * locVol g + j = row_major x (map (fun n => n / 2 + 1) (glbSize g))).
Proof.
  destruct (glbVol_split g Hv) as (E & HN & Hn).
  assert (Key : forall r i x, glb_coords g r i = Some x -> in_box x (glbSize g) -> index_to_topo g r i = Some (tpos x / locVol g, tpos x mod locVol g) /\ 0 <= tpos x / locVol g < nranks g).
  { intros r i x Hc Hb. unfold index_to_topo. cbv zeta. rewrite Hc, (topo_fold x Hb). fold (tpos x). pose proof (tpos_rng x Hb) as Hp.
    assert (Hq : 0 <= tpos x / locVol g < nranks g) by (split; [apply Z.div_pos; lia|apply Z.div_lt_upper_bound; lia]).
    split; [|assumption]. rewrite Z.quot_div_nonneg, Z.rem_mod_nonneg by lia. rewrite wrap32_id; [reflexivity|].
    unfold glb_fits_int, in_int, int_min, int_max in *. nia. }
  split; [|split].
  - intros r i Hr Hi. destruct (site_coords g r i Hv Hr Hi) as (x & Hc & Hb & _). destruct (Key r i x Hc Hb) as [Ek Hq].
    eexists _, _. split; [exact Ek|]. split; [exact Hq|]. now apply Z.mod_pos_bound.
  - intros r i r' i' p Hr Hi Hr' Hi' E1 E2. destruct (site_coords g r i Hv Hr Hi) as (x & Hc & Hb & Ho). destruct (site_coords g r' i' Hv Hr' Hi') as (x' & Hc' & Hb' & Ho').
    destruct (Key r i x Hc Hb) as [Ek _]. destruct (Key r' i' x' Hc' Hb') as [Ek' _]. rewrite Ek in E1. rewrite Ek' in E2.
    assert (E3 : tpos x = tpos x').
    { rewrite (Z.div_mod (tpos x) (locVol g)), (Z.div_mod (tpos x') (locVol g)) by lia. congruence. }
    apply tpos_inj in E3; try assumption. subst x'. rewrite Ho in Ho'. split; congruence.
  - intros r i x Hr Hi Hc Hlow. destruct (site_coords g r i Hv Hr Hi) as (x' & Hc' & Hb & Ho). assert (x' = x) by congruence. subst x'.
    destruct (Key r i x Hc Hb) as [Ek _]. eexists _, _. split; [exact Ek|].
    assert (K : forall mu, (mu < 4)%nat -> tk x mu = 0 /\ ts x mu = (glbSize g).[mu] / 2 + 1).
    { intros mu Hmu. unfold ts, tk, subcube_coord. specialize (Hlow mu Hmu).
      assert (Eq : subcube_size g mu 0 = (glbSize g).[mu] / 2 + 1).
      { unfold subcube_size. cbn [Z.eqb]. rewrite Z.quot_div_nonneg; [reflexivity| |lia]. destruct (sizes mu Hmu). lia. }
      rewrite Eq. destruct (Z.leb_spec ((glbSize g).[mu] / 2 + 1) x.[mu]); [lia|]. split; [reflexivity|exact Eq]. }
    destruct (K 0%nat) as [K0 S0]; [lia|]. destruct (K 1%nat) as [K1 S1]; [lia|]. destruct (K 2%nat) as [K2 S2]; [lia|]. destruct (K 3%nat) as [K3 S3]; [lia|].
    assert (Et : tpos x = tel x) by (unfold tpos, tsub; rewrite K0, K1, K2, K3; change (minind_cube_vol g (((0 * 2 + 0) * 2 + 0) * 2 + 0)) with 0; lia).
    rewrite Z.mul_comm, <- Z.div_mod by lia. rewrite Et. unfold tel, ty. rewrite K0, K1, K2, K3, S1, S2, S3.
    destruct (in_box_length4 x _ Hb (glb_len g Hv)) as (a&b&c&d&->). destruct (length4 _ (glb_len g Hv)) as (G0 & G1 & G2 & G3 & EG). rewrite EG.
    cbn [map nth row_major prodZ fold_right]. ring.
Qed.
End Topo.

(** list of links to be gathered *)
Section Links.
Context (g : grid) (rank : Z).
Definition adds (l0 : list (Z * Z)) (reqs : list (list Z * Z)) : list (Z * Z) :=
  fold_left (fun l q => snd (add_conf_link_for_paths g rank l (fst q) (snd q))) reqs l0.
Definition list_ok (l : list (Z * Z)) : Prop :=
  NoDup (map fst l) /\ map snd l = rev (map (fun k => 4 * locVol g + k) (seqZ (Z.of_nat (length l)))).
Lemma add_ok l x mu : list_ok l -> list_ok (snd (add_conf_link_for_paths g rank l x mu)) /\
  incl l (snd (add_conf_link_for_paths g rank l x mu)).
Proof.
  intros [H1 H2]. unfold add_conf_link_for_paths. destruct (getLoclxAndRankOfCoords g x) as [v k]. 
  destruct (k =? rank); [split; [split; assumption|apply incl_refl]|].
  set (c := (4 * v + mu) * nranks g + k). destruct (find (fun p => fst p =? c) l) as [p|] eqn:E; cbn [snd].
  - split; [split; assumption|apply incl_refl].
  - split; [|intros p Hp; now right]. split.
    + cbn [map fst]. constructor; [|assumption]. intros Hin. apply in_map_iff in Hin as (p & Ep & Hp). pose proof (find_none _ _ E p Hp) as Hn. cbv beta in Hn. lia.
    + cbn [map snd length]. rewrite H2. replace (Z.of_nat (S (length l))) with (Z.of_nat (length l) + 1) by lia.
      unfold seqZ. replace (Z.to_nat (Z.of_nat (length l) + 1)) with (length l + 1)%nat by lia. rewrite seq_app, !map_app, rev_app_distr.
      cbn [seq map rev app]. rewrite Nat2Z.id. reflexivity.
Qed.
Lemma adds_ok reqs : forall l, list_ok l -> list_ok (adds l reqs) /\ incl l (adds l reqs).
Proof.
  induction reqs as [|q reqs IH]; intros l Hl; [split; [assumption|apply incl_refl]|].
  destruct (add_ok l (fst q) (snd q) Hl) as [Ho Hi]. destruct (IH _ Ho) as [Ho' Hi']. split; [exact Ho'|]. eapply incl_tran; eassumption.
Qed.
Lemma add_result l x mu : list_ok l -> let '(p, l') := add_conf_link_for_paths g rank l x mu in
  let '(v, k) := getLoclxAndRankOfCoords g x in
  if k =? rank then p = 4 * v + mu else In ((4 * v + mu) * nranks g + k, p) l'.
Proof.
  intros _. unfold add_conf_link_for_paths. destruct (getLoclxAndRankOfCoords g x) as [v k]. destruct (k =? rank) eqn:Ek; [rewrite ?Ek; reflexivity|].
  set (c := (4 * v + mu) * nranks g + k). destruct (find (fun p => fst p =? c) l) as [p|] eqn:E; rewrite ?Ek.
  - apply find_some in E as [Hin Ec]. assert (fst p = c) by lia. destruct p as [a b]. cbn [fst snd] in *. now subst a.
  - now left.
Qed.
End Links.
