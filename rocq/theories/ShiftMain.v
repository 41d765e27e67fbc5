From Coq Require Import Permutation.
From Verif Require Import Base GeometryModel GeometrySpec GeometryProofs OwnerProofs FullLxProofs FullLxMain LabelProofs NeighProofs HaloModel HaloProofs
  IldgModel IldgProofs Geometry_final Prop_Geometry Prop_Halo ShiftModel ShiftProofs.
Open Scope Z_scope.

(* the lines: perp_coords is a bijection with the perpendicular coordinates *)
Definition perp_sizes (g : grid) (mu : nat) : list Z := map (fun nu => (locSize g).[nu]) (perpDirs mu).
Definition place (mu : nat) (c : list Z) : list Z :=
  match mu with
  | 0%nat => [0; c.[0]; c.[1]; c.[2]]
  | 1%nat => [c.[0]; 0; c.[1]; c.[2]]
  | 2%nat => [c.[0]; c.[1]; 0; c.[2]]
  | _ => [c.[0]; c.[1]; c.[2]; 0]
  end.
Definition perp_of (mu : nat) (y : list Z) : list Z := map (fun nu => y.[nu]) (perpDirs mu).

Lemma perp_coords_eq g mu p : (mu < 4)%nat -> perp_coords g mu p = place mu (coordOfLx p (perp_sizes g mu)).
Proof. intros H. destruct mu as [|[|[|[|]]]]; try lia; reflexivity. Qed.

Section G.
Context (g : grid) (Hv : valid_grid g = true) (mu : nat) (Hmu : (mu < 4)%nat).

Lemma perp_pos : Forall (fun n => 0 < n) (perp_sizes g mu).
Proof.
  apply Forall_forall. intros n H. apply in_map_iff in H. destruct H as (nu & <- & Hn).
  assert (nu < 4)%nat by (destruct mu as [|[|[|[|]]]]; cbn in Hn; lia). destruct (dir_facts g Hv nu H); lia.
Qed.
Lemma perp_vol_eq : perp_vol g mu = prodZ (perp_sizes g mu).
Proof.
  unfold perp_vol. rewrite (locVol_prod g Hv).
  destruct (valid_grid_inv g Hv) as (n0&n1&n2&n3&l0&l1&l2&l3&Hg&Hl&Hn&Hll). unfold perp_sizes. rewrite Hl.
  destruct mu as [|[|[|[|]]]]; try lia; cbn [perpDirs nth map]; unfold prodZ; cbn [fold_right];
    [replace (l0 * (l1 * (l2 * (l3 * 1)))) with (l1 * (l2 * (l3 * 1)) * l0) by ring
    |replace (l0 * (l1 * (l2 * (l3 * 1)))) with (l0 * (l2 * (l3 * 1)) * l1) by ring
    |replace (l0 * (l1 * (l2 * (l3 * 1)))) with (l0 * (l1 * (l3 * 1)) * l2) by ring
    |replace (l0 * (l1 * (l2 * (l3 * 1)))) with (l0 * (l1 * (l2 * 1)) * l3) by ring]; apply quot_mul_r; lia.
Qed.
Lemma place_perp c v : length c = 3%nat -> perp_of mu (upd (place mu c) mu v) = c.
Proof.
  intros H. destruct c as [|a [|b [|d [|]]]]; try discriminate. destruct mu as [|[|[|[|]]]]; try lia; reflexivity.
Qed.
Lemma perp_place y : length y = 4%nat -> upd (place mu (perp_of mu y)) mu y.[mu] = y.
Proof.
  intros H. destruct y as [|a [|b [|d [|e [|]]]]]; try discriminate. destruct mu as [|[|[|[|]]]]; try lia; reflexivity.
Qed.
Lemma perp_box y : in_box y (locSize g) -> in_box (perp_of mu y) (perp_sizes g mu).
Proof.
  intros H. apply in_box_nth in H. destruct H as [L H]. rewrite (loc_len g Hv) in H. unfold perp_of, perp_sizes, in_box.
  assert (K : forall l, (forall nu, In nu l -> (nu < 4)%nat) -> Forall2 (fun c n => 0 <= c < n) (map (fun nu => y.[nu]) l) (map (fun nu => (locSize g).[nu]) l)).
  { induction l as [|a l IH]; intros Hl; constructor; [apply H; apply Hl; now left|]. apply IH. intros. apply Hl. now right. }
  apply K. intros nu Hn. destruct mu as [|[|[|[|]]]]; cbn in Hn; lia.
Qed.
Lemma place_box c v : in_box c (perp_sizes g mu) -> 0 <= v < (locSize g).[mu] -> in_box (upd (place mu c) mu v) (locSize g).
Proof.
  intros H V. destruct (valid_grid_inv g Hv) as (n0&n1&n2&n3&l0&l1&l2&l3&Hg&Hl&Hn&Hll). unfold perp_sizes in H. rewrite Hl in *.
  destruct mu as [|[|[|[|]]]]; try lia; cbn [perpDirs nth map] in H, V;
    (inversion_clear H as [|? ? ? ? A H1]; inversion_clear H1 as [|? ? ? ? B H2]; inversion_clear H2 as [|? ? ? ? C H3]; inversion_clear H3;
     cbn; constructor; auto).
Qed.
Definition perp_index (y : list Z) : Z := lxOfCoord (perp_of mu y) (perp_sizes g mu).
Lemma perp_index_range y : in_box y (locSize g) -> 0 <= perp_index y < perp_vol g mu.
Proof. intros H. rewrite perp_vol_eq. apply lxOfCoord_bounds. now apply perp_box. Qed.
Lemma perp_coords_index y v : in_box y (locSize g) -> upd (perp_coords g mu (perp_index y)) mu v = upd y mu v.
Proof.
  intros H. rewrite perp_coords_eq by auto. unfold perp_index. rewrite coordOfLx_lxOfCoord by now apply perp_box.
  rewrite <- (perp_place y) at 2 by (rewrite (in_box_length _ _ H); apply loc_len; auto). now rewrite upd_upd.
Qed.
Lemma perp_coords_ok p v : 0 <= p < perp_vol g mu -> 0 <= v < (locSize g).[mu] ->
  in_box (upd (perp_coords g mu p) mu v) (locSize g) /\ perp_index (upd (perp_coords g mu p) mu v) = p.
Proof.
  intros Hp V. rewrite perp_vol_eq in Hp. rewrite perp_coords_eq by auto.
  assert (B : in_box (coordOfLx p (perp_sizes g mu)) (perp_sizes g mu)) by (apply coordOfLx_in_box; [apply perp_pos|auto]).
  split; [now apply place_box|]. unfold perp_index. rewrite place_perp.
  - apply lxOfCoord_coordOfLx; [apply perp_pos|auto].
  - rewrite (in_box_length _ _ B). unfold perp_sizes. rewrite map_length. destruct mu as [|[|[|[|]]]]; try lia; reflexivity.
Qed.

(* coordinates of a local site *)
Definition cd (i : Z) : list Z := coordOfLx i (locSize g).
Lemma cd_box i : 0 <= i < locVol g -> in_box (cd i) (locSize g).
Proof. intros H. apply coordOfLx_in_box; [now apply locSize_pos|now rewrite <- locVol_prod]. Qed.
Lemma cd_lx i : 0 <= i < locVol g -> loclxOfCoord g (cd i) = i.
Proof. intros H. apply lxOfCoord_coordOfLx; [now apply locSize_pos|now rewrite <- locVol_prod]. Qed.

Context (rc : list Z) (Hrc : in_box rc (nRanksDir g)) (sign : Z).
Let up := negb (0 <? sign).
Let t := label_all_sites g rc.

(* the value to be put in a local site *)
Definition from (i : Z) : Z := match loclxNeigh g rc t up i mu with Some j => j | None => 0 end.

Lemma shift_line_ok {A} (u : table A) p : 0 <= p < perp_vol g mu ->
  exists w, shift_line g rc t mu sign u p = Some w /\
  (forall i, 0 <= i < locVol g -> perp_index (cd i) = p -> w i = u (from i)) /\
  (forall i, (forall j, i = j -> 0 <= j < locVol g -> perp_index (cd j) <> p) -> w i = u i).
Proof.
  intros Hp. set (n := (locSize g).[mu]). destruct (dir_facts g Hv mu Hmu) as (N2 & _ & _). fold n in N2.
  set (st := if up then 0 else n - 1).
  destruct (perp_coords_ok p st Hp) as [B I]; [unfold st; case up; lia|].
  set (y := upd (perp_coords g mu p) mu st) in *.
  assert (Ly : length y = 4%nat) by (rewrite (in_box_length _ _ B); apply loc_len; auto).
  assert (Hs : forall k, upd y mu k = upd (perp_coords g mu p) mu k) by (intros; unfold y; apply upd_upd).
  assert (S0 : line_site g mu up y 0 = loclxOfCoord g y).
  { unfold line_site. fold n. fold st. replace (st + dsgn up * 0) with st by ring. rewrite Hs. fold y. now apply (box_lx g Hv). }
  destruct (line_all g Hv rc Hrc mu Hmu up y B u) as (w & E & W1 & W2). fold n in E, W1, W2. fold st in E.
  exists w. split.
  - unfold shift_line. fold n. rewrite <- E, S0. fold up. fold t. unfold up, st, y, dsgn. destruct (0 <? sign); reflexivity.
  - assert (L : forall k, 0 <= k < n -> let i := line_site g mu up y k in 0 <= i < locVol g /\ perp_index (cd i) = p).
    { intros k Hk i. assert (Bk := line_box g Hv mu Hmu up y B k Hk).
      pose proof (line_local g Hv mu Hmu up y B k Hk) as Li. fold i in Li. split; auto.
      assert (Ei : cd i = upd y mu ((if up then 0 else n - 1) + dsgn up * k)).
      { unfold i, line_site. rewrite (box_lx g Hv) by exact Bk. unfold cd, loclxOfCoord. now rewrite coordOfLx_lxOfCoord by exact Bk. }
      rewrite Ei, Hs. apply perp_coords_ok; auto. fold n. unfold dsgn. destruct up; lia. }
    split.
    + intros i Hi P. set (k := if up then (cd i).[mu] else n - 1 - (cd i).[mu]).
      pose proof (cd_box i Hi) as Bi. assert (Ck : 0 <= (cd i).[mu] < n).
      { apply in_box_nth in Bi. destruct Bi as [_ Bi]. apply Bi. rewrite (loc_len g Hv). auto. }
      assert (Hk : 0 <= k < n) by (unfold k; destruct up; lia).
      assert (Ei : i = line_site g mu up y k).
      { unfold line_site. fold n. rewrite Hs, <- P, perp_coords_index by auto.
        replace ((if up then 0 else n - 1) + dsgn up * k) with (cd i).[mu] by (unfold k, dsgn; destruct up; lia).
        rewrite upd_same by (rewrite (in_box_length _ _ Bi), (loc_len g Hv); auto). rewrite (box_lx g Hv) by auto. symmetry. now apply cd_lx. }
      rewrite Ei at 1. rewrite W1 by auto. f_equal. unfold from. rewrite Ei. unfold t. now rewrite line_neigh by auto.
    + intros i H. apply W2. intros k Hk ->. destruct (L k Hk) as [L1 L2]. now apply (H _ eq_refl).
Qed.

Lemma from_ok i : 0 <= i < locVol g -> exists j gc, loclxNeigh g rc t up i mu = Some j /\ from i = j /\ 0 <= j < locVol g + bordVol g /\
  glbCoordOfLoclx t i = Some gc /\ glbCoordOfLoclx t j = Some (periodic_shift (glbSize g) gc mu (if up then 1 else -1)) /\
  (j < locVol g -> perp_index (cd j) = perp_index (cd i)).
Proof.
  intros Hi. destruct (C08_neighbours g rc Hv Hrc) as [N1 N2].
  destruct (N2 i mu up Hi Hmu) as (j & J1 & J2 & _). fold t in J1.
  pose proof (vols_nonneg g Hv) as VN.
  destruct (N1 i mu up ltac:(lia) Hmu) as (gc & j' & G1 & J3 & J4). fold t in G1, J3, J4. rewrite J1 in J3. injection J3 as <-.
  exists j, gc. split; auto. split; [unfold from; now rewrite J1|]. split; auto. split; auto. split; [destruct J4 as [J4|[_ J4]]; [lia|auto]|].
  intros Lj. pose proof (cd_box i Hi) as Bi.
  assert (C : (nRanksDir g).[mu] =? 1 = true \/ True) by tauto. clear C.
  (* the neighbour lies on the same line *)
  destruct (shift_line_ok (fun k => Some k) (perp_index (cd i)) (perp_index_range _ Bi)) as (w & _ & _ & _).
  set (y := cd i) in *. assert (Ly : length y = 4%nat) by (rewrite (in_box_length _ _ Bi); apply loc_len; auto).
  assert (Ei : fullLxOfCoords g y = i) by (rewrite (box_lx g Hv) by auto; now apply cd_lx).
  destruct (box_ext g Hv y Bi) as [Xy Ny].
  assert (Ej : j = fullLxOfCoords g (move y mu (dsgn up))).
  { pose proof (neigh_eq g Hv rc y mu up Hrc Xy ltac:(lia) Hmu) as Q. rewrite Ei in Q. fold t in Q. congruence. }
  pose proof (cd_box j ltac:(lia)) as Bj.
  assert (Ejj : fullLxOfCoords g (cd j) = j) by (rewrite (box_lx g Hv) by auto; apply cd_lx; lia).
  (* j is the periodic move: compare perpendicular components *)
  set (m := (move y mu (dsgn up)).[mu]).
  destruct (dir_facts g Hv mu Hmu) as (L2 & P & G).
  assert (Hm : m = y.[mu] + dsgn up) by (unfold m, move; rewrite nth_upd_eq by lia; reflexivity).
  assert (By : 0 <= y.[mu] < (locSize g).[mu]).
  { apply in_box_nth in Bi. destruct Bi as [_ Bi]. apply Bi. rewrite (loc_len g Hv). auto. }
  assert (K : exists v, 0 <= v < (locSize g).[mu] /\ fullLxOfCoords g (upd y mu v) = j).
  { destruct (Z_le_dec 0 m) as [M0|M0]; [destruct (Z_lt_le_dec m (locSize g).[mu]) as [M1|M1]|].
    - exists m. split; [lia|]. rewrite Ej. unfold move. now rewrite Hm.
    - destruct (Z.eq_dec (nRanksDir g).[mu] 1) as [R|R].
      + exists 0. split; [lia|]. rewrite Ej. apply (fullLx_periodic g). unfold move. apply mod_upd; auto. rewrite <- Hm, G, R.
        replace m with (0 + 1 * (1 * (locSize g).[mu])) by (unfold dsgn in Hm; destruct up; lia). symmetry. apply Z.mod_add. lia.
      + exfalso. revert Lj. rewrite Ej.
        assert (X : ext_site g (move y mu (dsgn up))).
        { unfold move. apply ext_upd; auto. rewrite <- Hm. replace (1 <? (nRanksDir g).[mu]) with true by lia. unfold dsgn in Hm. destruct up; lia. }
        pose proof (n_out_move_le g Hv y mu (dsgn up) Ly Hmu) as NO.
        destruct (fullLx_region g Hv _ X ltac:(lia)) as [[R0 _]|[R1|R1]]; try lia.
        exfalso. apply (proj1 (n_out_0 g Hv _)) with (mu := mu) in R0; auto. fold m in R0. lia.
    - destruct (Z.eq_dec (nRanksDir g).[mu] 1) as [R|R].
      + exists ((locSize g).[mu] - 1). split; [lia|]. rewrite Ej. apply (fullLx_periodic g). unfold move. apply mod_upd; auto. rewrite <- Hm, G, R.
        replace ((locSize g).[mu] - 1) with (m + 1 * (1 * (locSize g).[mu])) by (unfold dsgn in Hm; destruct up; lia). apply Z.mod_add. lia.
      + exfalso. revert Lj. rewrite Ej.
        assert (X : ext_site g (move y mu (dsgn up))).
        { unfold move. apply ext_upd; auto. rewrite <- Hm. replace (1 <? (nRanksDir g).[mu]) with true by lia. unfold dsgn in Hm. destruct up; lia. }
        pose proof (n_out_move_le g Hv y mu (dsgn up) Ly Hmu) as NO.
        destruct (fullLx_region g Hv _ X ltac:(lia)) as [[R0 _]|[R1|R1]]; try lia.
        exfalso. apply (proj1 (n_out_0 g Hv _)) with (mu := mu) in R0; auto. fold m in R0. lia. }
  destruct K as (v & V & Kv).
  assert (E : cd j = upd y mu v).
  { assert (Bu : in_box (upd y mu v) (locSize g)) by now apply in_box_upd.
    destruct (box_ext g Hv _ Bu) as [X1 X2]. destruct (box_ext g Hv _ Bj) as [X3 X4].
    apply (fullLx_inj g Hv); auto; try lia; try congruence. }
  rewrite E. unfold perp_index. f_equal. unfold perp_of. apply map_ext_in. intros nu Hn. apply nth_upd_neq.
  destruct mu as [|[|[|[|]]]]; cbn in Hn; lia.
Qed.

Lemma lines_ok {A} (u : table A) : forall order v, NoDup order -> (forall p, In p order -> 0 <= p < perp_vol g mu) ->
  (forall i, v i = u i \/ (0 <= i < locVol g /\ ~ In (perp_index (cd i)) order /\ v i = u (from i))) ->
  exists w, fold_left (fun (o : option (table A)) iperp =>
      match o with None => None | Some u => shift_line g rc t mu sign u iperp end) order (Some v) = Some w /\
    (forall i, 0 <= i < locVol g -> In (perp_index (cd i)) order -> w i = u (from i)) /\
    (forall i, (0 <= i < locVol g -> ~ In (perp_index (cd i)) order) -> w i = v i).
Proof.
  induction order as [|p order IH]; intros v ND R V.
  - exists v. split; [reflexivity|]. split; [intros ? ? []|auto].
  - apply NoDup_cons_iff in ND. destruct ND as [Np ND].
    destruct (shift_line_ok v p (R p (or_introl eq_refl))) as (v1 & E1 & V1 & V2).
    assert (U : forall i, 0 <= i < locVol g -> perp_index (cd i) = p -> v (from i) = u (from i)).
    { intros i Hi Pi. destruct (from_ok i Hi) as (j & gc & _ & F & J & _ & _ & K). rewrite F.
      destruct (V j) as [Q|(Q1 & Q2 & _)]; auto. exfalso. apply Q2. left. rewrite K by lia. auto. }
    destruct (IH v1 ND) as (w & E & W1 & W2).
    + intros q Q. apply R. now right.
    + intros i. destruct (Z_le_dec 0 i) as [I0|I0]; [destruct (Z_lt_le_dec i (locVol g)) as [I1|I1]|].
      * destruct (Z.eq_dec (perp_index (cd i)) p) as [Q|Q].
        -- right. split; [lia|]. split; [rewrite Q; auto|]. rewrite V1 by (auto; lia). apply U; auto.
        -- rewrite (V2 i) by (intros j <- _; auto). destruct (V i) as [X|(X1 & X2 & X3)]; [now left|]. right. split; [lia|].
           split; auto. intros H. apply X2. now right.
      * rewrite (V2 i) by (intros j <- Hj; lia). destruct (V i) as [X|(X1 & _)]; [now left|lia].
      * rewrite (V2 i) by (intros j <- Hj; lia). destruct (V i) as [X|(X1 & _)]; [now left|lia].
    + exists w. cbn [fold_left]. rewrite E1. split; [exact E|]. split.
      * intros i Hi [Q|Q]; [|now apply W1]. rewrite W2 by (intros _; rewrite <- Q; auto). rewrite V1 by auto. now apply U.
      * intros i H. rewrite W2; [apply V2; intros j <- Hj Q; apply (H Hj); now left|]. intros Hi Q. apply (H Hi). now right.
Qed.
End G.

Lemma shift_main {A} g : valid_grid g = true -> forall (sched : Z -> list Z) (order : list Z) (mu : nat) (sign : Z) (data : Z -> table A),
  (forall q, 0 <= q < nranks g -> forall i, In i (sched q) <-> 0 <= i < locVol g) ->
  Permutation order (seqZ (perp_vol g mu)) -> (mu < 4)%nat ->
  forall r, 0 <= r < nranks g -> exists u', su3_vec_single_shift g sched order mu sign data r = Some u' /\
  forall x i1 r' i', in_box x (glbSize g) -> getLoclxAndRankOfCoords g x = (r, i1) ->
    getLoclxAndRankOfCoords g (periodic_shift (glbSize g) x mu (if 0 <? sign then -1 else 1)) = (r', i') ->
    u' i1 = data r' i'.
Proof.
  intros Hv sched order mu sign data Hs Hord Hmu r Hr.
  destruct (C10_halo A g Hv sched data Hs r Hr) as (u & EU & U1 & U2).
  destruct (rank_coord_box g Hv r Hr) as [Hrc Er].
  destruct (lines_ok g Hv mu Hmu (coordOfRank g r) Hrc sign u order u) as (w & W & W1 & W2).
  { apply (Permutation_NoDup (Permutation_sym Hord)), NoDup_seqZ. }
  { intros p Hp. apply in_seqZ. now apply (Permutation_in _ Hord). }
  { intros i. now left. }
  exists w. unfold su3_vec_single_shift. rewrite EU. split; [exact W|].
  intros x i1 r' i' Hx Ex E'.
  destruct (C03_ownership g Hv) as (O1 & O2 & O3 & _).
  destruct (O1 x Hx) as (ra & ia & Ea & Ra & Ia & _). rewrite Ex in Ea. injection Ea as <- <-.
  rewrite W1; auto.
  2: { apply (Permutation_in _ (Permutation_sym Hord)). apply in_seqZ. apply (perp_index_range g Hv mu Hmu). now apply (cd_box g Hv). }
  destruct (from_ok g Hv mu Hmu (coordOfRank g r) Hrc sign i1 Ia) as (j & gc & J1 & F & J2 & G1 & G2 & _). rewrite F.
  destruct (site_coords g r i1 Hv Hr Ia) as (x' & X1 & X2 & X3).
  assert (x' = x) by (apply O2; auto; congruence). subst x'. unfold glb_coords in X1. unfold rank_labels in U2.
  rewrite G1 in X1. injection X1 as ->.
  assert (Gs : glbCoordOfLoclx (label_all_sites g (coordOfRank g r)) j = Some (periodic_shift (glbSize g) x mu (if 0 <? sign then -1 else 1))).
  { rewrite G2. destruct (0 <? sign); reflexivity. }
  destruct (Z_lt_le_dec j (locVol g)) as [L|L].
  - rewrite U1 by lia. destruct (site_coords g r j Hv Hr ltac:(lia)) as (z & Z1 & Z2 & Z3). unfold glb_coords in Z1. rewrite Gs in Z1. injection Z1 as <-.
    rewrite E' in Z3. injection Z3 as -> ->. reflexivity.
  - destruct (U2 j ltac:(lia)) as (gc & rr & ii & H1 & H2 & _ & _ & H3). rewrite Gs in H1. injection H1 as <-. rewrite E' in H2. injection H2 as -> ->. exact H3.
Qed.

Lemma quad_shift_main {A} g : valid_grid g = true -> forall (sched : Z -> list Z) (order : list Z) (mu : nat) (sign : Z) (data : Z -> table A),
  (forall q, 0 <= q < nranks g -> forall i, In i (sched q) <-> 0 <= i < locVol g) ->
  Permutation order (seqZ (locVol g)) -> (mu < 4)%nat -> sign = 0 \/ sign = 1 ->
  forall r, 0 <= r < nranks g -> exists u', quad_su3_vec_single_shift g sched order mu sign data r = Some u' /\
  forall x i1 r' i', in_box x (glbSize g) -> getLoclxAndRankOfCoords g x = (r, i1) ->
    getLoclxAndRankOfCoords g (periodic_shift (glbSize g) x mu (if sign =? 1 then -1 else 1)) = (r', i') ->
    u' i1 = data r' i'.
Proof.
  intros Hv sched order mu sign data Hs Hord Hmu Hsg r Hr.
  destruct (C10_halo A g Hv sched data Hs r Hr) as (u & EU & U1 & U2).
  destruct (rank_coord_box g Hv r Hr) as [Hrc Er].
  set (up := 1 - sign =? 1).
  destruct (C08_neighbours g (coordOfRank g r) Hv Hrc) as [N1 N2].
  assert (LL : forall l v, (forall i, In i l -> 0 <= i < locVol g) ->
    exists w, fold_left (fun (o : option (table A)) ivol => match o with None => None | Some res =>
       match loclxNeigh g (coordOfRank g r) (rank_labels g r) up ivol mu with None => None | Some n => Some (put res ivol (u n)) end end) l (Some v) = Some w /\
    forall i, (In i l -> exists j, loclxNeigh g (coordOfRank g r) (rank_labels g r) up i mu = Some j /\ w i = u j) /\ (~ In i l -> w i = v i)).
  { induction l as [|a l IH]; intros v Hl; [exists v; split; auto; intros i; split; [intros []|auto]|].
    destruct (N2 a mu up (Hl a (or_introl eq_refl)) Hmu) as (j & J & _). cbn [fold_left]. unfold rank_labels at 2. rewrite J.
    destruct (IH (put v a (u j))) as (w & W & K); [intros i Hi; apply Hl; now right|]. exists w. split; [exact W|].
    intros i. destruct (K i) as [K1 K2]. destruct (in_dec Z.eq_dec i l) as [I|I].
    - split; [intros _; now apply K1|]. intros H. elim H. now right.
    - split.
      + intros [<-|H]; [|contradiction]. exists j. split; [exact J|]. rewrite K2 by auto. apply put_eq.
      + intros H. rewrite K2 by auto. apply put_neq. intros ->. apply H. now left. }
  destruct (LL order (data r)) as (w & W & K).
  { intros i Hi. apply in_seqZ. now apply (Permutation_in _ Hord). }
  exists w. unfold quad_su3_vec_single_shift. rewrite EU.
  replace ((1 - sign =? 0) || (1 - sign =? 1)) with true by lia. split; [exact W|].
  intros x i1 r' i' Hx Ex E'.
  destruct (C03_ownership g Hv) as (O1 & O2 & O3 & _).
  destruct (O1 x Hx) as (ra & ia & Ea & Ra & Ia & _). rewrite Ex in Ea. injection Ea as <- <-.
  destruct (proj1 (K i1)) as (j & J & Wj); [apply (Permutation_in _ (Permutation_sym Hord)), in_seqZ, Ia|]. rewrite Wj.
  pose proof (vols_nonneg g Hv) as VN.
  destruct (N1 i1 mu up ltac:(lia) Hmu) as (gc & j' & G1 & J3 & J4). unfold rank_labels in J. rewrite J in J3. injection J3 as <-.
  destruct (N2 i1 mu up Ia Hmu) as (j' & J5 & J6 & _). rewrite J in J5. injection J5 as <-.
  destruct (site_coords g r i1 Hv Hr Ia) as (x' & X1 & X2 & X3).
  assert (x' = x) by (apply O2; auto; congruence). subst x'. unfold glb_coords in X1. unfold rank_labels in U2, X1.
  rewrite G1 in X1. injection X1 as ->.
  assert (Gs : glbCoordOfLoclx (label_all_sites g (coordOfRank g r)) j = Some (periodic_shift (glbSize g) x mu (if sign =? 1 then -1 else 1))).
  { destruct J4 as [J4|[_ J4]]; [lia|]. rewrite J4. unfold up. destruct Hsg as [-> | ->]; reflexivity. }
  destruct (Z_lt_le_dec j (locVol g)) as [L|L].
  - rewrite U1 by lia. destruct (site_coords g r j Hv Hr ltac:(lia)) as (z & Z1 & Z2 & Z3). unfold glb_coords, rank_labels in Z1. rewrite Gs in Z1. injection Z1 as <-.
    rewrite E' in Z3. injection Z3 as -> ->. reflexivity.
  - destruct (U2 j ltac:(lia)) as (gc & rr & ii & H1 & H2 & _ & _ & H3). rewrite Gs in H1. injection H1 as <-. rewrite E' in H2. injection H2 as -> ->. exact H3.
Qed.

Lemma quad_sign_refuted (A : Type) g sched order mu (data : Z -> table A) r : quad_su3_vec_single_shift g sched order mu (-1) data r = None.
Proof. unfold quad_su3_vec_single_shift. destruct (updateHalo g sched data r); reflexivity. Qed.
