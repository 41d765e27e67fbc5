(** Assembly of the geometry lemmas into the statements of Prop_Geometry. *)
From Coq Require Import Sorted.
From Verif Require Import Base GeometryModel GeometrySpec GeometryProofs OwnerProofs FullLxProofs
  FullLxMain LabelProofs NeighProofs GeoMiscModel GeoMiscProofs.

Lemma box_index_main : forall s, Forall (fun n => 0 < n) s ->
  (forall x, in_box x s ->
     0 <= lxOfCoord x s < volOfLx s /\ lxOfCoord x s = row_major x s /\ coordOfLx (lxOfCoord x s) s = x) /\
  (forall i, 0 <= i < volOfLx s -> in_box (coordOfLx i s) s /\ lxOfCoord (coordOfLx i s) s = i) /\
  (forall x c n, in_box x s -> 0 <= c < n -> lxOfCoord (x ++ [c]) (s ++ [n]) = lxOfCoord x s * n + c).
Proof.
  intros s Hs. rewrite volOfLx_prodZ. split; [|split].
  - intros x Hx. split; [now apply lxOfCoord_bounds|]. split; [now apply lxOfCoord_row_major, in_box_length|now apply coordOfLx_lxOfCoord].
  - intros i Hi. split; [now apply coordOfLx_in_box|now apply lxOfCoord_coordOfLx].
  - intros x c n Hx Hc. pose proof (in_box_length _ _ Hx).
    rewrite !lxOfCoord_row_major by (rewrite ?app_length; cbn [length]; lia). now apply row_major_snoc.
Qed.

Lemma fits_eq g : prodZ (glbSize g) <= 2 ^ 31 <-> glb_fits_int g.
Proof. unfold glb_fits_int, int_max. reflexivity. Qed.

Lemma global_index_main : forall g, valid_grid g = true -> prodZ (glbSize g) <= 2 ^ 31 ->
  (forall x, in_box x (glbSize g) -> glbCoordOfGlblx g (glblxOfCoord g x) = Some x) /\
  (forall gx, 0 <= gx < glbVol g -> exists x, glbCoordOfGlblx g gx = Some x /\ in_box x (glbSize g) /\ glblxOfCoord g x = gx).
Proof.
  intros g Hv Hf. apply fits_eq in Hf. unfold glbVol. rewrite volOfLx_prodZ. split.
  - intros x Hx. rewrite (glbCoord_valid g) by (auto; now apply lxOfCoord_bounds). f_equal. now apply coordOfLx_lxOfCoord.
  - intros gx Hg. exists (coordOfLx gx (glbSize g)). split; [now apply glbCoord_valid|].
    split; [apply coordOfLx_in_box; auto using glbSize_pos|apply lxOfCoord_coordOfLx; auto using glbSize_pos].
Qed.

Lemma large_lattice_ub : exists g gx, valid_grid g = true /\ 0 <= gx < glbVol g /\ glbCoordOfGlblx g gx = None.
Proof.
  exists (mkGrid [512;256;256;256] [4;2;2;2]), 8589934591. vm_compute. repeat split; congruence.
Qed.

Lemma ownership_main : forall g, valid_grid g = true ->
  (forall x, in_box x (glbSize g) -> exists r i, getLoclxAndRankOfCoords g x = (r, i) /\
     0 <= r < nranks g /\ 0 <= i < locVol g /\ rankHostingSiteOfCoords g x = r /\
     forall mu, (mu < 4)%nat -> x.[mu] = (coordOfRank g r).[mu] * (locSize g).[mu] + (coordOfLx i (locSize g)).[mu]) /\
  (forall x y, in_box x (glbSize g) -> in_box y (glbSize g) ->
     getLoclxAndRankOfCoords g x = getLoclxAndRankOfCoords g y -> x = y) /\
  (forall r i, 0 <= r < nranks g -> 0 <= i < locVol g ->
     exists x, in_box x (glbSize g) /\ getLoclxAndRankOfCoords g x = (r, i)) /\
  (glb_fits_int g -> forall x, in_box x (glbSize g) ->
     getLoclxAndRankOfGlblx g (glblxOfCoord g x) = Some (getLoclxAndRankOfCoords g x) /\
     rankHostingGlblx g (glblxOfCoord g x) = Some (fst (getLoclxAndRankOfCoords g x))).
Proof.
  intros g Hv. split; [|split; [|split]].
  - intros x Hx. destruct (getLoclxAndRankOfCoords g x) as [r i] eqn:E. exists r, i. split; [reflexivity|].
    destruct (owner_fwd g x Hv Hx r i E) as (Hr & Hi & Ex). split; [assumption|]. split; [assumption|]. split.
    + unfold getLoclxAndRankOfCoords in E. now injection E.
    + intros mu Hmu. rewrite Ex at 1. unfold join_coords.
      pose proof (loc_len g Hv). pose proof (nr_len g Hv).
      assert (length (coordOfRank g r) = 4%nat) by (unfold coordOfRank; rewrite coordOfLx_length; assumption).
      assert (length (coordOfLx i (locSize g)) = 4%nat) by (rewrite coordOfLx_length; assumption).
      rewrite !nth_map2 by len4. reflexivity.
  - intros x y. now apply owner_inj.
  - intros r i. now apply owner_onto.
  - intros Hf x Hx. apply fits_eq in Hf. destruct (global_index_main g Hv Hf) as [H _]. specialize (H x Hx).
    unfold getLoclxAndRankOfGlblx, rankHostingGlblx. rewrite H. split; reflexivity.
Qed.

Lemma iter_succ' {A} n (f : A -> A) x : Nat.iter (S n) f x = f (Nat.iter n f x).
Proof. reflexivity. Qed.

Lemma iter_shift G x mu n : in_box x G -> (mu < length G)%nat ->
  Nat.iter n (fun z => periodic_shift G z mu 1) x = periodic_shift G x mu (Z.of_nat n).
Proof.
  intros Hx Hmu. induction n as [|n IH]; [symmetry; now apply shift_0|].
  rewrite iter_succ', IH.
  rewrite shift_shift by assumption. f_equal. lia.
Qed.

Lemma global_neighbours_main : forall g, valid_grid g = true -> glb_fits_int g -> forall mu, (mu < 4)%nat ->
  (forall x, in_box x (glbSize g) ->
     glblxNeighup g (glblxOfCoord g x) mu = Some (glblxOfCoord g (periodic_shift (glbSize g) x mu 1)) /\
     glblxNeighdw g (glblxOfCoord g x) mu = Some (glblxOfCoord g (periodic_shift (glbSize g) x mu (-1)))) /\
  (forall gx, 0 <= gx < glbVol g -> exists u d,
     glblxNeighup g gx mu = Some u /\ 0 <= u < glbVol g /\ glblxNeighdw g u mu = Some gx /\
     glblxNeighdw g gx mu = Some d /\ 0 <= d < glbVol g /\ glblxNeighup g d mu = Some gx /\
     (forall nu, (nu < 4)%nat -> nu <> mu -> exists v w, 
        glblxNeighup g gx nu = Some v /\ glblxNeighup g v mu = Some w /\ glblxNeighup g u nu = Some w) /\
     Nat.iter (Z.to_nat (glbSize g).[mu]) (fun o => match o with Some z => glblxNeighup g z mu | None => None end) (Some gx) = Some gx).
Proof.
  intros g Hv Hf mu Hmu. split.
  - intros x Hx. split; [now apply neighup_spec|now apply neighdw_spec].
  - unfold glbVol. rewrite volOfLx_prodZ. intros gx Hgx.
    set (G := glbSize g). assert (HG : length G = 4%nat) by apply (glb_len g Hv).
    set (x := coordOfLx gx G).
    assert (Hx : in_box x G) by (apply coordOfLx_in_box; auto; apply glbSize_pos; assumption).
    assert (Ex : gx = glblxOfCoord g x) by (symmetry; apply lxOfCoord_coordOfLx; auto; apply glbSize_pos; assumption).
    assert (HS : forall k d z, (k < 4)%nat -> in_box z G -> in_box (periodic_shift G z k d) G).
    { intros k d z Hk Hz. apply shift_in_box; [assumption|congruence]. }
    exists (glblxOfCoord g (periodic_shift G x mu 1)), (glblxOfCoord g (periodic_shift G x mu (-1))).
    rewrite Ex. 
    assert (Hmu' : (mu < length G)%nat) by congruence.
    split; [now apply neighup_spec|]. split; [apply lxOfCoord_bounds; auto|]. split.
    { rewrite neighdw_spec by (auto; apply HS; auto). fold G. rewrite shift_shift by assumption. now rewrite shift_0. }
    split; [now apply neighdw_spec|]. split; [apply lxOfCoord_bounds; auto|]. split.
    { rewrite neighup_spec by (auto; apply HS; auto). fold G. rewrite shift_shift by assumption. now rewrite shift_0. }
    split.
    + intros nu Hnu Hne. exists (glblxOfCoord g (periodic_shift G x nu 1)), (glblxOfCoord g (periodic_shift G (periodic_shift G x nu 1) mu 1)).
      split; [now apply neighup_spec|]. split; [apply neighup_spec; auto; apply HS; auto|].
      rewrite neighup_spec by (auto; apply HS; auto). fold G. do 2 f_equal. apply shift_comm. auto.
    + assert (K : forall n, Nat.iter n (fun o => match o with Some z => glblxNeighup g z mu | None => None end) (Some (glblxOfCoord g x)) =
         Some (glblxOfCoord g (Nat.iter n (fun z => periodic_shift G z mu 1) x)) /\ in_box (Nat.iter n (fun z => periodic_shift G z mu 1) x) G).
      { induction n as [|n [IH1 IH2]]; [split; [reflexivity|assumption]|]. rewrite !iter_succ'.
        rewrite IH1. split; [now apply neighup_spec|now apply HS]. }
      rewrite (proj1 (K _)). rewrite iter_shift by assumption.
      destruct (dir_facts g Hv mu Hmu) as (A & B & C). fold G in C. rewrite Z2Nat.id by (rewrite C; nia).
      do 2 f_equal. now apply shift_period.
Qed.

Lemma comb_box g f : valid_grid g = true -> in_box (map (fun mu => f mu mod (glbSize g).[mu]) dirs) (glbSize g).
Proof.
  intros Hv. apply in_box_nth. rewrite (glb_len g Hv). split; [reflexivity|]. intros mu Hmu.
  rewrite nth_map_dirs by assumption. apply Z.mod_pos_bound. destruct (dir_facts g Hv mu Hmu) as (A & B & C). rewrite C. nia.
Qed.

Lemma sum_diff_main : forall g rc, valid_grid g = true -> in_box rc (nRanksDir g) ->
  let t := label_all_sites g rc in
  forall b c, 0 <= b < locVol g -> 0 <= c < locVol g ->
  exists gb gc s d, glbCoordOfLoclx t b = Some gb /\ glbCoordOfLoclx t c = Some gc /\
    in_box s (glbSize g) /\ in_box d (glbSize g) /\
    (forall mu, (mu < 4)%nat -> s.[mu] = (gb.[mu] + gc.[mu]) mod (glbSize g).[mu] /\
                                d.[mu] = (gb.[mu] - gc.[mu]) mod (glbSize g).[mu]) /\
    glblxOfSum g t b c = Some (glblxOfCoord g s) /\ glblxOfSum g t c b = Some (glblxOfCoord g s) /\
    glblxOfDiff g t b c = Some (glblxOfCoord g d) /\
    (forall a, 0 <= a < locVol g -> glbCoordOfLoclx t a = Some s -> glblxOfDiff g t a c = Some (glblxOfCoord g gb)).
Proof.
  intros g rc Hv Hrc t b c Hb Hc.
  assert (HS : forall i, 0 <= i < locVol g -> exists gi, glbCoordOfLoclx t i = Some gi /\ in_box gi (glbSize g)).
  { intros i Hi. destruct (loc_true_glb g Hv rc i Hrc Hi) as (H & _ & _ & _). exists (join_coords g rc (coordOfLx i (locSize g))).
    split; [exact H|]. apply (join_split g rc _ Hv Hrc). rewrite (locVol_prod g Hv) in Hi. apply coordOfLx_in_box; auto using locSize_pos. }
  destruct (HS b Hb) as (gb & Egb & Bgb). destruct (HS c Hc) as (gc & Egc & Bgc).
  exists gb, gc, (map (fun mu => (gb.[mu] * 1 + gc.[mu] * 1) mod (glbSize g).[mu]) dirs),
                 (map (fun mu => (gb.[mu] * 1 + gc.[mu] * -1) mod (glbSize g).[mu]) dirs).
  split; [assumption|]. split; [assumption|]. split; [now apply comb_box|]. split; [now apply comb_box|]. split.
  { intros mu Hmu. rewrite !nth_map_dirs by assumption. split; f_equal; ring. }
  assert (Es : glblxOfSum g t b c = Some (glblxOfCoord g (map (fun mu => (gb.[mu] * 1 + gc.[mu] * 1) mod (glbSize g).[mu]) dirs)))
    by (now apply comb_eq).
  split; [exact Es|]. split; [rewrite <- (sum_comm g t b c gb gc); assumption|]. split; [now apply comb_eq|].
  intros a Ha Ea. eapply diff_sum; try eassumption. now apply comb_box.
Qed.

Lemma opp_origin : forall g, valid_grid g = true -> let t := label_all_sites g [0;0;0;0] in
  forall b, 0 <= b < locVol g -> exists gb o, glbCoordOfLoclx t b = Some gb /\ in_box o (glbSize g) /\
    (forall mu, (mu < 4)%nat -> o.[mu] = (- gb.[mu]) mod (glbSize g).[mu]) /\ glblxOpp g t b = Some (glblxOfCoord g o).
Proof.
  intros g Hv t b Hb.
  assert (Hrc : in_box [0;0;0;0] (nRanksDir g)).
  { apply in_box_nth. rewrite (nr_len g Hv). split; [reflexivity|]. intros mu Hmu.
    destruct (dir_facts g Hv mu Hmu) as (A & B & C). destruct mu as [|[|[|[|]]]]; try lia; cbn [nth]; lia. }
  destruct (sum_diff_main g [0;0;0;0] Hv Hrc 0 b ltac:(lia) Hb) as (g0 & gb & s & d & E0 & Eb & _ & Bd & Hd & _ & _ & Ed & _).
  exists gb, d. split; [exact Eb|]. split; [exact Bd|]. split; [|exact Ed].
  intros mu Hmu. destruct (Hd mu Hmu) as [_ ->]. f_equal.
  destruct (loc_true_glb g Hv [0;0;0;0] 0 Hrc ltac:(lia)) as (H & _). rewrite H in E0. apply Some_inj in E0. subst g0.
  assert (Z0 : (join_coords g [0;0;0;0] (coordOfLx 0 (locSize g))).[mu] = 0); [|rewrite Z0; ring].
  unfold join_coords. destruct (valid_grid_inv g Hv) as (n0&n1&n2&n3&l0&l1&l2&l3&Hg&Hl&_). rewrite Hl.
  unfold coordOfLx. cbn [rev app coordOfLx_rev].
  clear -Hmu. destruct mu as [|[|[|[|]]]]; [..|exfalso; clear -Hmu; lia]; reflexivity.
Qed.

Lemma opp_wrong : exists g rc b gb, valid_grid g = true /\ in_box rc (nRanksDir g) /\ 0 <= b < locVol g /\
    glbCoordOfLoclx (label_all_sites g rc) b = Some gb /\
    glblxOpp g (label_all_sites g rc) b <> Some (glblxOfCoord g (map2 (fun c n => (- c) mod n) gb (glbSize g))).
Proof.
  exists (mkGrid [8;2;2;2] [2;1;1;1]), [1;0;0;0], 0, [4;0;0;0].
  split; [reflexivity|]. split; [apply in_boxb_spec; reflexivity|]. split; [vm_compute; split; congruence|].
  split; vm_compute; [reflexivity|congruence].
Qed.

Lemma bordVolh_split g : valid_grid g = true -> prefix (sizes g) 5 = locVol g + bordVolh g.
Proof.
  intros Hv. rewrite (sizes_explicit g Hv). unfold prefix, sumZ. rewrite bordVolh_eq.
  cbn [map app firstn fold_right]. ring.
Qed.

Lemma classes_backward k mu : (1 <= k < 9)%nat -> (mu < 4)%nat ->
  ((nth k classes []).[mu] = -1 -> (k < 5)%nat) /\ ((nth k classes []).[mu] = 1 -> (5 <= k)%nat).
Proof.
  intros Hk Hmu. destruct k as [|[|[|[|[|[|[|[|[|]]]]]]]]]; try lia;
  destruct mu as [|[|[|[|]]]]; try lia; cbn; split; intros H; try discriminate; lia.
Qed.

Lemma labels_main : forall g, valid_grid g = true ->
  (forall y, ext_site g y -> (n_out g y <= 2)%nat ->
     match n_out g y with
     | 0%nat => 0 <= fullLxOfCoords g y < locVol g
     | 1%nat => locVol g <= fullLxOfCoords g y < locVol g + bordVol g /\
                (forall mu, (mu < 4)%nat -> (y.[mu] = -1 -> fullLxOfCoords g y < locVol g + bordVolh g) /\
                                            (y.[mu] = (locSize g).[mu] -> locVol g + bordVolh g <= fullLxOfCoords g y))
     | _ => locVol g + bordVol g <= fullLxOfCoords g y < locVol g + bordVol g + edgeVol g
     end) /\
  (forall y z, ext_site g y -> (n_out g y <= 2)%nat -> ext_site g z -> (n_out g z <= 2)%nat ->
     fullLxOfCoords g y = fullLxOfCoords g z -> y = z) /\
  (forall i, 0 <= i < locVol g + bordVol g + edgeVol g ->
     exists y, ext_site g y /\ (n_out g y <= 2)%nat /\ fullLxOfCoords g y = i) /\
  (forall y, ext_site g y -> (2 < n_out g y)%nat -> fullLxOfCoords g y = -1) /\
  (forall y z, map2 Z.modulo y (glbSize g) = map2 Z.modulo z (glbSize g) -> fullLxOfCoords g y = fullLxOfCoords g z).
Proof.
  intros g Hv. split; [|split; [|split; [|split]]].
  - intros y Hy Hn. pose proof (fullLx_region g Hv y Hy Hn) as HR. cbn zeta in HR.
    destruct HR as [[E H]|[[E H]|[E H]]]; rewrite E; [assumption| |assumption].
    split; [assumption|]. intros mu Hmu.
    destruct (fullLx_in g Hv y Hy Hn) as (Hk & Ef & Hr).
    assert (Hin : In (flags g y) classes) by (apply in_classes; assumption).
    pose proof (index_of_nth (flags g y) classes [] Hin) as Hnth.
    set (k := index_of (flags g y) classes) in *.
    pose proof (sizes_nonneg g Hv) as Hs. pose proof (sizes_len g) as Hsl.
    pose proof (prefix_S (sizes g) k ltac:(lia)) as HS.
    assert (Hk19 : (1 <= k < 9)%nat).
    { pose proof (classes_nonzero _ Hk) as Hz. rewrite Hnth, <- (n_out_nonzero g Hv y Hy), E in Hz.
      destruct (Nat.ltb_spec k 1); [discriminate|]. destruct (Nat.ltb_spec k 9); [lia|discriminate]. }
    destruct (classes_backward k mu Hk19 Hmu) as [Kb Kf]. rewrite Hnth in Kb, Kf.
    rewrite (flags_nth g Hv y mu (proj1 Hy) Hmu) in Kb, Kf. destruct (dir_facts g Hv mu Hmu) as (H2 & _).
    rewrite <- (bordVolh_split g Hv). split; intros Ey; rewrite Ey in *.
    + unfold flag1 in Kb. rewrite Z.eqb_refl in Kb. specialize (Kb eq_refl).
      pose proof (prefix_mono _ Hs (S k) 5 ltac:(lia) ltac:(lia)). lia.
    + unfold flag1 in Kf. destruct (Z.eqb_spec (locSize g).[mu] (-1)); [lia|]. rewrite Z.eqb_refl in Kf. specialize (Kf eq_refl).
      pose proof (prefix_mono _ Hs 5 k ltac:(lia) ltac:(lia)). lia.
  - intros y z. now apply fullLx_inj.
  - intros i. now apply fullLx_onto.
  - intros y. now apply fullLx_none.
  - intros y z. now apply fullLx_periodic.
Qed.

Lemma tables_main : forall g rc, valid_grid g = true -> in_box rc (nRanksDir g) ->
  let t := label_all_sites g rc in
  forall i, 0 <= i < locVol g + bordVol g + edgeVol g ->
  exists y, ext_site g y /\ (n_out g y <= 2)%nat /\ fullLxOfCoords g y = i /\
    let gl := glblxOfCoord g (true_glb g rc y) in
    glbCoordOfLoclx t i = Some (true_glb g rc y) /\ in_box (true_glb g rc y) (glbSize g) /\
    (i < locVol g -> locCoordOfLoclx t i = Some y /\ glblxOfLoclx t i = Some gl /\ y = coordOfLx i (locSize g)) /\
    (locVol g <= i < locVol g + bordVol g ->
       glblxOfBordlx t (i - locVol g) = Some gl /\ loclxOfBordlx t (i - locVol g) = Some i) /\
    (locVol g + bordVol g <= i -> glblxOfEdgelx t (i - locVol g - bordVol g) = Some gl).
Proof.
  intros g rc Hv Hrc t i Hi. destruct (fullLx_onto g Hv i Hi) as (y & Hy & Hn & Ei).
  exists y. split; [assumption|]. split; [assumption|]. split; [assumption|]. cbn zeta.
  destruct (label_spec g Hv rc y Hrc Hy Hn) as (H1 & H2 & H3 & H4). rewrite Ei in *. fold t in H1, H2, H3, H4.
  split; [assumption|]. split; [apply true_glb_box; auto; apply Hy|]. split; [|split; assumption].
  intros Hl. destruct (H2 Hl) as [H2a H2b]. split; [assumption|]. split; [assumption|].
  destruct (loc_true_glb g Hv rc i Hrc ltac:(lia)) as (_ & L & _). fold t in L. rewrite L in H2a. now apply Some_inj in H2a.
Qed.

Lemma neighbours_main : forall g rc, valid_grid g = true -> in_box rc (nRanksDir g) ->
  let t := label_all_sites g rc in
  (forall i mu (up : bool), 0 <= i < locVol g + bordVol g -> (mu < 4)%nat ->
     exists gc j, glbCoordOfLoclx t i = Some gc /\ loclxNeigh g rc t up i mu = Some j /\
     ((j = -1 /\ locVol g <= i) \/
      (0 <= j < locVol g + bordVol g + edgeVol g /\
       glbCoordOfLoclx t j = Some (periodic_shift (glbSize g) gc mu (if up then 1 else -1))))) /\
  (forall i mu (up : bool), 0 <= i < locVol g -> (mu < 4)%nat ->
     exists j, loclxNeigh g rc t up i mu = Some j /\ 0 <= j < locVol g + bordVol g /\
       loclxNeigh g rc t (negb up) j mu = Some i).
Proof.
  intros g rc Hv Hrc t. split; intros i mu up Hi Hmu; [now apply neigh_spec|now apply neigh_inverse].
Qed.

Lemma edge_neigh_wrong : exists g rc i mu gc j gj, valid_grid g = true /\ in_box rc (nRanksDir g) /\
    locVol g + bordVol g <= i < locVol g + bordVol g + edgeVol g /\
    glbCoordOfLoclx (label_all_sites g rc) i = Some gc /\
    loclxNeigh g rc (label_all_sites g rc) false i mu = Some j /\ j <> -1 /\
    glbCoordOfLoclx (label_all_sites g rc) j = Some gj /\ gj <> periodic_shift (glbSize g) gc mu (-1).
Proof.
  set (g := mkGrid [8;8;2;2] [2;2;1;1]).
  exists g, [0;0;0;0], (fullLxOfCoords g [-1;-1;0;0]), 0%nat.
  set (t := label_all_sites g [0;0;0;0]).
  exists [7;7;0;0], (fullLxOfCoords g [-2;-1;0;0]).
  exists (match glbCoordOfLoclx t (fullLxOfCoords g [-2;-1;0;0]) with Some c => c | None => [] end).
  split; [reflexivity|]. split; [apply in_boxb_spec; reflexivity|]. split; [vm_compute; split; congruence|].
  vm_compute. repeat split; congruence.
Qed.

Lemma seqZ_sorted n : StronglySorted Z.lt (seqZ n).
Proof.
  unfold seqZ. assert (K : forall m k, StronglySorted Z.lt (map Z.of_nat (seq k m))).
  { induction m as [|m IH]; intros k; cbn [seq map]; constructor; [apply IH|].
    rewrite Forall_forall. intros z Hz. apply in_map_iff in Hz as (j & <- & Hj). apply in_seq in Hj. lia. }
  apply K.
Qed.
Lemma filter_sorted f l : StronglySorted Z.lt l -> StronglySorted Z.lt (filter f l).
Proof.
  induction 1 as [|a l Hs IH Hf]; cbn [filter]; [constructor|]. destruct (f a); [|assumption].
  constructor; [assumption|]. rewrite Forall_forall in *. intros b Hb. apply filter_In in Hb as [Hb _]. auto.
Qed.

Lemma bulk_main : forall g rc, valid_grid g = true -> in_box rc (nRanksDir g) ->
  let t := label_all_sites g rc in
  let stays (up : bool) i := forall mu j, (mu < 4)%nat -> loclxNeigh g rc t up i mu = Some j -> j < locVol g in
  exists s, find_bulk_sites g t = Some s /\
    (forall i, In i (loclxOfBulklx s) <-> 0 <= i < locVol g /\ stays true i /\ stays false i) /\
    (forall i, In i (loclxOfSurflx s) <-> 0 <= i < locVol g /\ ~ (stays true i /\ stays false i)) /\
    (forall i, In i (loclxOfNonFwSurflx s) <-> 0 <= i < locVol g /\ stays true i) /\
    (forall i, In i (loclxOfFwSurflx s) <-> 0 <= i < locVol g /\ ~ stays true i) /\
    (forall i, In i (loclxOfNonBwSurflx s) <-> 0 <= i < locVol g /\ stays false i) /\
    (forall i, In i (loclxOfBwSurflx s) <-> 0 <= i < locVol g /\ ~ stays false i) /\
    Forall (StronglySorted Z.lt)
      [loclxOfBulklx s; loclxOfSurflx s; loclxOfNonFwSurflx s; loclxOfFwSurflx s; loclxOfNonBwSurflx s; loclxOfBwSurflx s].
Proof.
  intros g rc Hv Hrc t stays. eexists. split; [apply (find_bulk_eq g Hv rc Hrc)|].
  cbn [loclxOfBulklx loclxOfSurflx loclxOfNonFwSurflx loclxOfFwSurflx loclxOfNonBwSurflx loclxOfBwSurflx].
  assert (K : forall (up : bool) i, 0 <= i < locVol g -> (ok_at g (if up then nfw_at g else nbw_at g) i = true <-> stays up i))
    by (intros up i Hi; apply (stays_ok g Hv rc up i Hrc Hi)).
  assert (Kt : forall i, 0 <= i < locVol g -> (ok_at g (nfw_at g) i = true <-> stays true i)) by (intros i Hi; exact (K true i Hi)).
  assert (Kf : forall i, 0 <= i < locVol g -> (ok_at g (nbw_at g) i = true <-> stays false i)) by (intros i Hi; exact (K false i Hi)).
  clear K.
  assert (Kb : forall i, 0 <= i < locVol g -> (ok_at g (bulk_at g) i = true <-> stays true i /\ stays false i)).
  { intros i Hi. rewrite (bulk_both g Hv), andb_true_iff, (Kt i Hi), (Kf i Hi). reflexivity. }
  assert (P : forall p (Q : Z -> Prop), (forall i, 0 <= i < locVol g -> (p i = true <-> Q i)) ->
    forall i, In i (filter p (seqZ (locVol g))) <-> 0 <= i < locVol g /\ Q i).
  { intros p Q H i. rewrite filter_In, in_seqZ. split; intros [A B]; (split; [assumption|]); now apply H. }
  assert (N : forall p (Q : Z -> Prop), (forall i, 0 <= i < locVol g -> (p i = true <-> Q i)) ->
    forall i, In i (filter (fun i => negb (p i)) (seqZ (locVol g))) <-> 0 <= i < locVol g /\ ~ Q i).
  { intros p Q H. apply P. intros i Hi. rewrite <- (H i Hi). destruct (p i); cbn; intuition congruence. }
  split; [apply P, Kb|]. split; [apply N, Kb|]. split; [apply P, Kt|]. split; [apply N, Kt|].
  split; [apply P, Kf|]. split; [apply N, Kf|].
  repeat constructor; apply filter_sorted, seqZ_sorted.
Qed.

Lemma boxes_main : forall g, valid_grid g = true ->
  (forall ibox isub, 0 <= ibox < 16 -> 0 <= isub < nsite_per_box g ibox -> 0 <= box_site g ibox isub < locVol g) /\
  (forall ibox isub jbox jsub, 0 <= ibox < 16 -> 0 <= isub < nsite_per_box g ibox ->
     0 <= jbox < 16 -> 0 <= jsub < nsite_per_box g jbox ->
     box_site g ibox isub = box_site g jbox jsub -> ibox = jbox /\ isub = jsub) /\
  (forall i, 0 <= i < locVol g ->
     exists ibox isub, 0 <= ibox < 16 /\ 0 <= isub < nsite_per_box g ibox /\ box_site g ibox isub = i) /\
  (forall ibox, 0 <= ibox < 16 -> 0 < nsite_per_box g ibox).
Proof.
  intros g Hv. split; [|split; [|split]].
  - intros ibox isub Hi Hs. rewrite (locVol_prod g Hv). apply lxOfCoord_bounds. now apply box_coords_in.
  - intros ibox isub jbox jsub. now apply box_unique.
  - intros i. now apply box_onto.
  - intros ibox Hi. rewrite (nsite_prod g Hv). apply prodZ_pos. now apply boxSize_pos.
Qed.

Lemma mirror_main : forall g c imir, valid_grid g = true -> in_box c (glbSize g) ->
  let m := get_mirrorized_site_coords g c imir in
  in_box m (glbSize g) /\
  (forall mu, (mu < 4)%nat -> m.[mu] = if Z.testbit imir (Z.of_nat mu) then (- c.[mu]) mod (glbSize g).[mu] else c.[mu]) /\
  get_mirrorized_site_coords g m imir = c /\
  (forall jmir, get_mirrorized_site_coords g m jmir = get_mirrorized_site_coords g c (Z.lxor imir jmir)).
Proof.
  intros g c imir Hv Hc m. pose proof (glb_len g Hv) as HG.
  pose proof Hc as Hc'. apply in_box_nth in Hc' as [Hl Hb]. rewrite HG in *.
  split; [now apply mirror_box|]. split; [intros mu Hmu; apply mirror_nth; auto|]. split; [|intros j; now apply mirror_xor].
  unfold m. rewrite mirror_xor by assumption. rewrite Z.lxor_nilpotent.
  apply list4_ext; [reflexivity|assumption|]. intros mu Hmu. rewrite mirror_nth by auto. now rewrite Z.testbit_0_l.
Qed.

Lemma stag_main : forall G x, length G = 4%nat -> in_box x G ->
  (forall mu, (mu < 4)%nat ->
     (getStagphases x).[mu] = getStagphase x mu /\
     getStagphase x mu = if Z.even (sumZ (firstn mu x)) then 1 else -1) /\
  ((forall k, (k < 4)%nat -> Z.even G.[k] = true) ->
   forall mu nu, (mu < 4)%nat -> (nu < 4)%nat -> mu <> nu ->
     getStagphase x mu * getStagphase (periodic_shift G x mu 1) nu *
     getStagphase (periodic_shift G x nu 1) mu * getStagphase x nu = -1).
Proof.
  intros G x HG Hx. split.
  - intros mu Hmu. split; [apply stagphases_agree; lia|]. rewrite stagphase_spec.
    + unfold sgn. assert (Hl : length x = 4%nat) by (rewrite (in_box_length _ _ Hx); assumption).
      destruct (length4 x Hl) as (a&b&c&d&->). reflexivity.
    + lia.
    + intros nu Hnu. apply in_box_nth in Hx as [_ Hx]. apply Hx. lia.
  - intros He mu nu Hmu Hnu Hne. now apply stag_plaq.
Qed.
