(** Site ownership and global movements on a valid grid. *)
From Verif Require Import Base GeometryModel GeometrySpec GeometryProofs.

Lemma length4 (x : list Z) : length x = 4%nat -> exists a b c d, x = [a; b; c; d].
Proof.
  destruct x as [|a [|b [|c [|d [|e x]]]]]; cbn; try discriminate. intros _. now exists a, b, c, d.
Qed.

Lemma in_box4 a b c d l0 l1 l2 l3 :
  in_box [a;b;c;d] [l0;l1;l2;l3] <-> 0 <= a < l0 /\ 0 <= b < l1 /\ 0 <= c < l2 /\ 0 <= d < l3.
Proof.
  rewrite <- in_boxb_spec. cbn [in_boxb]. lia.
Qed.

Lemma in_box_length4 x s : in_box x s -> length s = 4%nat -> exists a b c d, x = [a;b;c;d].
Proof. intros H Hl. apply length4. rewrite (in_box_length _ _ H). exact Hl. Qed.

(** what the aborts of initGrid guarantee, spelled out *)
Lemma valid_grid_inv g : valid_grid g = true ->
  exists n0 n1 n2 n3 l0 l1 l2 l3,
    g = mkGrid [n0*l0; n1*l1; n2*l2; n3*l3] [n0; n1; n2; n3] /\
    locSize g = [l0; l1; l2; l3] /\
    (0 < n0 /\ 0 < n1 /\ 0 < n2 /\ 0 < n3) /\ (2 <= l0 /\ 2 <= l1 /\ 2 <= l2 /\ 2 <= l3).
Proof.
  destruct g as [G n]. unfold valid_grid. cbn [glbSize nRanksDir]. unfold NDIM.
  intros H. apply andb_prop in H as [H1 H2]. apply andb_prop in H1 as [H1 H3].
  apply Nat.eqb_eq in H1, H3.
  destruct (length4 _ H1) as (G0 & G1 & G2 & G3 & ->).
  destruct (length4 _ H3) as (n0 & n1 & n2 & n3 & ->). clear H1 H3.
  unfold locSize in *. cbn [glbSize nRanksDir map2 nth forallb dirs] in *.
  exists n0, n1, n2, n3, (Z.quot G0 n0), (Z.quot G1 n1), (Z.quot G2 n2), (Z.quot G3 n3).
  rewrite !andb_true_iff in H2.
  destruct H2 as ((( A1 & A2) & A3) & ((B1 & B2) & B3) & ((C1 & C2) & C3) & ((D1 & D2) & D3) & _).
  apply Z.ltb_lt in A1, B1, C1, D1. apply Z.eqb_eq in A2, B2, C2, D2. apply Z.leb_le in A3, B3, C3, D3.
  pose proof (Z.quot_rem' G0 n0). pose proof (Z.quot_rem' G1 n1).
  pose proof (Z.quot_rem' G2 n2). pose proof (Z.quot_rem' G3 n3).
  split; [|split; [reflexivity|lia]]. f_equal. f_equal; [lia|]. f_equal; [lia|]. f_equal; [lia|]. f_equal; lia.
Qed.

Lemma prodZ4 a b c d : prodZ [a;b;c;d] = a*b*c*d.
Proof. unfold prodZ; cbn [fold_right]; ring. Qed.

Lemma locVol_prod g : valid_grid g = true -> locVol g = prodZ (locSize g).
Proof.
  intros Hv. destruct (valid_grid_inv g Hv) as (n0&n1&n2&n3&l0&l1&l2&l3&Hg&Hl&Hn&Hll).
  unfold locVol, glbVol, nranks. rewrite Hl, !volOfLx_prodZ. rewrite Hg. cbn [glbSize nRanksDir].
  rewrite !prodZ4.
  replace (n0*l0*(n1*l1)*(n2*l2)*(n3*l3)) with ((l0*l1*l2*l3)*(n0*n1*n2*n3)) by ring.
  apply Z.quot_mul. 
  assert (0 < n0*n1) by nia. assert (0 < n0*n1*n2) by nia. assert (0 < n0*n1*n2*n3) by nia. lia.
Qed.

Lemma locSize_pos g : valid_grid g = true -> Forall (fun n => 0 < n) (locSize g).
Proof.
  intros Hv. destruct (valid_grid_inv g Hv) as (n0&n1&n2&n3&l0&l1&l2&l3&Hg&Hl&Hn&Hll).
  rewrite Hl. repeat constructor; lia.
Qed.

Lemma nRanks_pos g : valid_grid g = true -> Forall (fun n => 0 < n) (nRanksDir g).
Proof.
  intros Hv. destruct (valid_grid_inv g Hv) as (n0&n1&n2&n3&l0&l1&l2&l3&Hg&Hl&Hn&Hll).
  rewrite Hg. repeat constructor; lia.
Qed.

Lemma glbSize_pos g : valid_grid g = true -> Forall (fun n => 0 < n) (glbSize g).
Proof.
  intros Hv. destruct (valid_grid_inv g Hv) as (n0&n1&n2&n3&l0&l1&l2&l3&Hg&Hl&Hn&Hll).
  rewrite Hg. repeat constructor; nia.
Qed.

Lemma loc_len g : valid_grid g = true -> length (locSize g) = 4%nat.
Proof.
  intros Hv. destruct (valid_grid_inv g Hv) as (n0&n1&n2&n3&l0&l1&l2&l3&Hg&Hl&Hn&Hll).
  now rewrite Hl.
Qed.

(** division with remainder of one coordinate *)
Lemma split_coord c n l : 0 < n -> 0 < l -> 0 <= c < n * l ->
  0 <= Z.quot c l < n /\ 0 <= c - Z.quot c l * l < l.
Proof.
  intros Hn Hl Hc. rewrite Z.quot_div_nonneg by lia.
  pose proof (Z.div_mod c l ltac:(lia)). pose proof (Z.mod_pos_bound c l ltac:(lia)).
  assert (0 <= c / l < n). { split; [apply Z.div_pos; lia|]. apply Z.div_lt_upper_bound; nia. }
  split; [lia|]. nia.
Qed.

Lemma owner_split g x : valid_grid g = true -> in_box x (glbSize g) ->
  let p := map2 Z.quot x (locSize g) in
  let l := map2 Z.sub x (map2 Z.mul p (locSize g)) in
  in_box p (nRanksDir g) /\ in_box l (locSize g) /\ x = map2 Z.add (map2 Z.mul p (locSize g)) l.
Proof.
  intros Hv Hx. destruct (valid_grid_inv g Hv) as (n0&n1&n2&n3&l0&l1&l2&l3&Hg&Hl&Hn&Hll).
  destruct (in_box_length4 _ _ Hx) as (a&b&c&d&->). { rewrite Hg. reflexivity. }
  rewrite Hl. cbn [map2]. rewrite Hg in *. cbn [glbSize nRanksDir] in *.
  apply in_box4 in Hx. rewrite !in_box4.
  destruct Hx as (Ha&Hb&Hc&Hd).
  pose proof (split_coord a n0 l0). pose proof (split_coord b n1 l1).
  pose proof (split_coord c n2 l2). pose proof (split_coord d n3 l3).
  split; [lia|]. split; [lia|].
  f_equal; [ring|]. f_equal; [ring|]. f_equal; [ring|]. f_equal; ring.
Qed.

Lemma join_split g p l : valid_grid g = true -> in_box p (nRanksDir g) -> in_box l (locSize g) ->
  in_box (join_coords g p l) (glbSize g) /\ map2 Z.quot (join_coords g p l) (locSize g) = p /\
  map2 Z.sub (join_coords g p l) (map2 Z.mul p (locSize g)) = l.
Proof.
  intros Hv Hp Hl'. unfold join_coords.
  destruct (valid_grid_inv g Hv) as (n0&n1&n2&n3&l0&l1&l2&l3&Hg&Hl&Hn&Hll).
  destruct (in_box_length4 _ _ Hp) as (a&b&c&d&->). { rewrite Hg. reflexivity. }
  destruct (in_box_length4 _ _ Hl') as (e&f&h&k&->). { rewrite Hl. reflexivity. }
  rewrite Hl in *. rewrite Hg in *. cbn [glbSize nRanksDir map2] in *.
  rewrite !in_box4 in *.
  assert (Q : forall q r m, 0 <= q -> 0 <= r < m -> Z.quot (q*m+r) m = q).
  { intros q r m Hq Hr. rewrite Z.quot_div_nonneg by nia. rewrite Z.div_add_l by lia.
    rewrite Z.div_small by lia. lia. }
  assert (B : forall q r m n, 0 <= q < n -> 0 <= r < m -> 0 <= q*m+r < n*m) by (intros; nia).
  split; [|split].
  - split; [apply B; lia|]. split; [apply B; lia|]. split; apply B; lia.
  - rewrite !Q by lia. reflexivity.
  - f_equal; [ring|]. f_equal; [ring|]. f_equal; [ring|]. f_equal; ring.
Qed.

Lemma nranks_prod g : nranks g = prodZ (nRanksDir g).
Proof. apply volOfLx_prodZ. Qed.

Lemma owner_fwd g x : valid_grid g = true -> in_box x (glbSize g) ->
  forall r i, getLoclxAndRankOfCoords g x = (r, i) ->
  0 <= r < nranks g /\ 0 <= i < locVol g /\
  x = join_coords g (coordOfRank g r) (coordOfLx i (locSize g)).
Proof.
  intros Hv Hx r i. unfold getLoclxAndRankOfCoords. intros H.
  destruct (owner_split g x Hv Hx) as (Hp & Hl & He). cbn zeta in H.
  injection H as <- <-. unfold rankOfCoords, loclxOfCoord, coordOfRank.
  rewrite nranks_prod, (locVol_prod g Hv).
  split; [now apply lxOfCoord_bounds|]. split; [now apply lxOfCoord_bounds|].
  rewrite !coordOfLx_lxOfCoord by assumption. exact He.
Qed.

Lemma owner_bwd g p l : valid_grid g = true -> in_box p (nRanksDir g) -> in_box l (locSize g) ->
  getLoclxAndRankOfCoords g (join_coords g p l) = (rankOfCoords g p, loclxOfCoord g l).
Proof.
  intros Hv Hp Hl. destruct (join_split g p l Hv Hp Hl) as (_ & H1 & H2).
  unfold getLoclxAndRankOfCoords. rewrite H1, H2. reflexivity.
Qed.

Lemma owner_onto g r i : valid_grid g = true -> 0 <= r < nranks g -> 0 <= i < locVol g ->
  exists x, in_box x (glbSize g) /\ getLoclxAndRankOfCoords g x = (r, i).
Proof.
  intros Hv Hr Hi. rewrite nranks_prod in Hr. rewrite (locVol_prod g Hv) in Hi.
  pose proof (coordOfLx_in_box _ _ (nRanks_pos g Hv) Hr) as Hp.
  pose proof (coordOfLx_in_box _ _ (locSize_pos g Hv) Hi) as Hl.
  exists (join_coords g (coordOfLx r (nRanksDir g)) (coordOfLx i (locSize g))). split.
  - now apply join_split.
  - rewrite owner_bwd by assumption. unfold rankOfCoords, loclxOfCoord.
    rewrite !lxOfCoord_coordOfLx; auto using nRanks_pos, locSize_pos.
Qed.

Lemma owner_inj g x y : valid_grid g = true -> in_box x (glbSize g) -> in_box y (glbSize g) ->
  getLoclxAndRankOfCoords g x = getLoclxAndRankOfCoords g y -> x = y.
Proof.
  intros Hv Hx Hy H. destruct (getLoclxAndRankOfCoords g y) as [r i] eqn:E.
  destruct (owner_fwd g x Hv Hx _ _ H) as (_&_&->).
  destruct (owner_fwd g y Hv Hy _ _ E) as (_&_&->). reflexivity.
Qed.

Lemma glbCoord_ok g gx : Forall (fun n => 0 < n) (glbSize g) -> (1 < length (glbSize g))%nat -> 
  Forall (fun n => n <= int_max) (glbSize g) -> glb_fits_int g ->
  0 <= gx < prodZ (glbSize g) -> glbCoordOfGlblx g gx = Some (coordOfLx gx (glbSize g)).
Proof.
  intros Hp _ Hm Hf Hg. unfold glb_fits_int in Hf. apply glbCoordOfGlblx_small; [|lia].
  rewrite Forall_forall in *. intros n Hn. specialize (Hp n Hn). specialize (Hm n Hn). cbn in *. lia.
Qed.

Lemma valid_each_small g : valid_grid g = true -> glb_fits_int g -> Forall (fun n => n <= int_max) (glbSize g).
Proof.
  intros Hv Hf. destruct (valid_grid_inv g Hv) as (n0&n1&n2&n3&l0&l1&l2&l3&Hg&Hl&Hn&Hll).
  unfold glb_fits_int in Hf. rewrite Hg in *. cbn [glbSize] in *. rewrite prodZ4 in Hf.
  assert (2 <= n0*l0) by nia. assert (2 <= n1*l1) by nia. assert (2 <= n2*l2) by nia. assert (2 <= n3*l3) by nia.
  set (a := n0*l0) in *. set (b := n1*l1) in *. set (c := n2*l2) in *. set (d := n3*l3) in *.
  clearbody a b c d. clear - Hf H H0 H1 H2. 
  assert (4 <= a*b) by nia. assert (4 <= c*d) by nia.
  assert (a*b*c*d = (a*b)*(c*d)) by ring.
  assert (4*(a*b) <= int_max+1) by nia. assert (4*(c*d) <= int_max+1) by nia.
  repeat constructor; nia.
Qed.

Lemma glbCoord_valid g gx : valid_grid g = true -> glb_fits_int g -> 0 <= gx < prodZ (glbSize g) ->
  glbCoordOfGlblx g gx = Some (coordOfLx gx (glbSize g)).
Proof.
  intros Hv Hf Hg. apply glbCoord_ok; auto using glbSize_pos, valid_each_small.
  destruct (valid_grid_inv g Hv) as (n0&n1&n2&n3&l0&l1&l2&l3&->&_). cbn. lia.
Qed.

(** *** periodic shifts *)
Lemma in_box_nth x s : in_box x s <-> length x = length s /\ forall m, (m < length s)%nat -> 0 <= x.[m] < s.[m].
Proof.
  split.
  - induction 1 as [|c n x s Hc Hr IH]; [cbn; split; [reflexivity|lia]|].
    destruct IH as [Hl IH]. cbn [length]. split; [lia|]. intros [|m] Hm; cbn [nth]; [assumption|apply IH; lia].
  - revert s; induction x as [|c x IH]; intros [|n s] [Hl H]; try discriminate; constructor.
    + apply (H O). cbn; lia.
    + apply IH. split; [now injection Hl|]. intros m Hm. apply (H (S m)). cbn; lia.
Qed.

Lemma in_box_upd x s mu v : in_box x s -> 0 <= v < s.[mu] -> in_box (upd x mu v) s.
Proof.
  rewrite !in_box_nth. intros [Hl H] Hv. split; [now rewrite upd_length|]. intros m Hm.
  destruct (Nat.eq_dec mu m) as [->|Hne].
  - rewrite nth_upd_eq by (rewrite Hl; assumption). assumption.
  - rewrite nth_upd_neq by assumption. now apply H.
Qed.

Lemma shift_in_box G x mu d : in_box x G -> (mu < length G)%nat -> in_box (periodic_shift G x mu d) G.
Proof.
  intros Hx Hmu. apply in_box_upd; [assumption|]. apply Z.mod_pos_bound.
  apply in_box_nth in Hx as [_ H]. specialize (H mu Hmu). lia.
Qed.

Lemma upd_upd x mu v w : upd (upd x mu v) mu w = upd x mu w.
Proof. revert mu; induction x as [|h t IH]; intros [|mu]; cbn; auto. now rewrite IH. Qed.

Lemma upd_same x mu : (mu < length x)%nat -> upd x mu x.[mu] = x.
Proof.
  revert mu; induction x as [|h t IH]; intros [|mu]; cbn; try lia; auto. intros H. rewrite IH by lia. reflexivity.
Qed.

Lemma upd_comm x mu nu v w : mu <> nu -> upd (upd x mu v) nu w = upd (upd x nu w) mu v.
Proof.
  revert mu nu; induction x as [|h t IH]; intros [|mu] [|nu] H; cbn; auto; try lia.
  rewrite IH; auto.
Qed.

Lemma shift_shift G x mu a b : in_box x G -> (mu < length G)%nat ->
  periodic_shift G (periodic_shift G x mu a) mu b = periodic_shift G x mu (a + b).
Proof.
  intros Hx Hmu. unfold periodic_shift. rewrite upd_upd.
  rewrite nth_upd_eq by (rewrite (in_box_length _ _ Hx); assumption). f_equal.
  rewrite Zplus_mod_idemp_l. f_equal. ring.
Qed.

Lemma shift_0 G x mu : in_box x G -> (mu < length G)%nat -> periodic_shift G x mu 0 = x.
Proof.
  intros Hx Hmu. unfold periodic_shift. rewrite Z.add_0_r.
  pose proof (in_box_length _ _ Hx). apply in_box_nth in Hx as [_ H0]. rewrite Z.mod_small by auto.
  apply upd_same. lia.
Qed.

Lemma shift_period G x mu : in_box x G -> (mu < length G)%nat -> periodic_shift G x mu G.[mu] = x.
Proof.
  intros Hx Hmu. unfold periodic_shift.
  pose proof (in_box_length _ _ Hx). apply in_box_nth in Hx as [_ H0].
  specialize (H0 mu Hmu).
  replace (x.[mu] + G.[mu]) with (x.[mu] + 1 * G.[mu]) by ring.
  rewrite Z.mod_add by lia. rewrite Z.mod_small by lia. apply upd_same. lia.
Qed.

Lemma shift_comm G x mu nu a b : mu <> nu -> 
  periodic_shift G (periodic_shift G x mu a) nu b = periodic_shift G (periodic_shift G x nu b) mu a.
Proof.
  intros Hne. unfold periodic_shift. rewrite !nth_upd_neq by auto. apply upd_comm; assumption.
Qed.

Lemma neighup_spec g x mu : valid_grid g = true -> glb_fits_int g -> in_box x (glbSize g) -> (mu < 4)%nat ->
  glblxNeighup g (glblxOfCoord g x) mu = Some (glblxOfCoord g (periodic_shift (glbSize g) x mu 1)).
Proof.
  intros Hv Hf Hx Hmu. unfold glblxNeighup.
  pose proof (lxOfCoord_bounds _ _ Hx).
  rewrite (glbCoord_valid g _ Hv Hf) by assumption. cbn [option_map]. unfold glblxOfCoord.
  rewrite coordOfLx_lxOfCoord by assumption. unfold periodic_shift.
  apply in_box_nth in Hx as [Hl Hx].
  assert (Hmu' : (mu < length (glbSize g))%nat).
  { destruct (valid_grid_inv g Hv) as (n0&n1&n2&n3&l0&l1&l2&l3&->&_). exact Hmu. }
  specialize (Hx mu Hmu'). rewrite Z.rem_mod_nonneg by lia. reflexivity.
Qed.

Lemma neighdw_spec g x mu : valid_grid g = true -> glb_fits_int g -> in_box x (glbSize g) -> (mu < 4)%nat ->
  glblxNeighdw g (glblxOfCoord g x) mu = Some (glblxOfCoord g (periodic_shift (glbSize g) x mu (-1))).
Proof.
  intros Hv Hf Hx Hmu. unfold glblxNeighdw.
  pose proof (lxOfCoord_bounds _ _ Hx).
  rewrite (glbCoord_valid g _ Hv Hf) by assumption. cbn [option_map]. unfold glblxOfCoord.
  rewrite coordOfLx_lxOfCoord by assumption. unfold periodic_shift.
  apply in_box_nth in Hx as [Hl Hx].
  assert (Hmu' : (mu < length (glbSize g))%nat).
  { destruct (valid_grid_inv g Hv) as (n0&n1&n2&n3&l0&l1&l2&l3&->&_). exact Hmu. }
  specialize (Hx mu Hmu'). rewrite Z.rem_mod_nonneg by lia.
  replace (x.[mu] + (glbSize g).[mu] - 1) with (x.[mu] + -1 + 1 * (glbSize g).[mu]) by ring.
  rewrite Z.mod_add by lia. reflexivity.
Qed.
