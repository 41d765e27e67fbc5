(** Property theorems C01-C09, C18-C20: lattice geometry.  Each theorem is closed by [exact]. *)
From Verif Require Import Base GeometryModel GeometrySpec GeometryProofs OwnerProofs FullLxProofs
  FullLxMain LabelProofs NeighProofs GeoMiscModel GeoMiscProofs Geometry_final GeoOpp.

(** a non trivial grid used in the examples: 8x4x6x4 lattice over 2x2x3x1 ranks *)
Definition ex_grid : grid := mkGrid [8;4;6;4] [2;2;3;1].
Example ex_grid_valid : valid_grid ex_grid = true. Proof. vm_compute. reflexivity. Qed.
Example ex_grid_fits : glb_fits_int ex_grid. Proof. unfold glb_fits_int, ex_grid, int_max; vm_compute; discriminate. Qed.
Example ex_rank : in_box [1;0;2;0] (nRanksDir ex_grid). Proof. apply in_boxb_spec. vm_compute. reflexivity. Qed.
Example ex_volumes : (locVol ex_grid, bordVol ex_grid, edgeVol ex_grid) = (64, 160, 128). Proof. vm_compute. reflexivity. Qed.

(** C01: box index and coordinates are inverse; the last coordinate runs fastest *)
Theorem C01_box_index :
  forall s, Forall (fun n => 0 < n) s ->
  (forall x, in_box x s ->
     0 <= lxOfCoord x s < volOfLx s /\ lxOfCoord x s = row_major x s /\ coordOfLx (lxOfCoord x s) s = x) /\
  (forall i, 0 <= i < volOfLx s -> in_box (coordOfLx i s) s /\ lxOfCoord (coordOfLx i s) s = i) /\
  (forall x c n, in_box x s -> 0 <= c < n -> lxOfCoord (x ++ [c]) (s ++ [n]) = lxOfCoord x s * n + c).
Proof. exact box_index_main. Qed.
Print Assumptions C01_box_index.
Example C01_ex : in_box [3;2;1] [4;3;5] /\ lxOfCoord [3;2;1] [4;3;5] = 56.
Proof. split; [apply in_boxb_spec|]; reflexivity. Qed.

(** C02: the global index decodes to the coordinates it was built from, up to 2^31 sites *)
Theorem C02_global_index :
  forall g, valid_grid g = true -> prodZ (glbSize g) <= 2 ^ 31 ->
  (forall x, in_box x (glbSize g) -> glbCoordOfGlblx g (glblxOfCoord g x) = Some x) /\
  (forall gx, 0 <= gx < glbVol g -> exists x, glbCoordOfGlblx g gx = Some x /\ in_box x (glbSize g) /\ glblxOfCoord g x = gx).
Proof. exact global_index_main. Qed.
Print Assumptions C02_global_index.

(** above 2^31 sites the decode runs into signed overflow: undefined behaviour for a valid index *)
Theorem C02_large_lattice_refuted :
  exists g gx, valid_grid g = true /\ 0 <= gx < glbVol g /\ glbCoordOfGlblx g gx = None.
Proof. exact large_lattice_ub. Qed.
Print Assumptions C02_large_lattice_refuted.

(** C03: site ownership is a bijection *)
Theorem C03_ownership :
  forall g, valid_grid g = true ->
  (forall x, in_box x (glbSize g) -> exists r i, getLoclxAndRankOfCoords g x = (r, i) /\
     0 <= r < nranks g /\ 0 <= i < locVol g /\ rankHostingSiteOfCoords g x = r /\
     forall mu, (mu < 4)%nat -> x.[mu] = (coordOfRank g r).[mu] * (locSize g).[mu] + (coordOfLx i (locSize g)).[mu]) /\
  (forall x y, in_box x (glbSize g) -> in_box y (glbSize g) ->
     getLoclxAndRankOfCoords g x = getLoclxAndRankOfCoords g y -> x = y) /\
  (forall r i, 0 <= r < nranks g -> 0 <= i < locVol g ->
     exists x, in_box x (glbSize g) /\ getLoclxAndRankOfCoords g x = (r, i)) /\
  (glb_fits_int g -> forall x, in_box x (glbSize g) ->
     getLoclxAndRankOfGlblx g (glblxOfCoord g x) = Some (getLoclxAndRankOfCoords g x) /\
     rankHostingGlblx g (glblxOfCoord g x) = Some (fst (getLoclxAndRankOfCoords g x))).
Proof. exact ownership_main. Qed.
Print Assumptions C03_ownership.

(** C04: global neighbours are periodic unit shifts *)
Theorem C04_global_neighbours :
  forall g, valid_grid g = true -> glb_fits_int g -> forall mu, (mu < 4)%nat ->
  (forall x, in_box x (glbSize g) ->
     glblxNeighup g (glblxOfCoord g x) mu = Some (glblxOfCoord g (periodic_shift (glbSize g) x mu 1)) /\
     glblxNeighdw g (glblxOfCoord g x) mu = Some (glblxOfCoord g (periodic_shift (glbSize g) x mu (-1)))) /\
  (forall gx, 0 <= gx < glbVol g -> exists u d,
     glblxNeighup g gx mu = Some u /\ 0 <= u < glbVol g /\ glblxNeighdw g u mu = Some gx /\
     glblxNeighdw g gx mu = Some d /\ 0 <= d < glbVol g /\ glblxNeighup g d mu = Some gx /\
     (forall nu, (nu < 4)%nat -> nu <> mu -> exists v w, 
        glblxNeighup g gx nu = Some v /\ glblxNeighup g v mu = Some w /\ glblxNeighup g u nu = Some w) /\
     Nat.iter (Z.to_nat (glbSize g).[mu]) (fun o => match o with Some z => glblxNeighup g z mu | None => None end) (Some gx) = Some gx).
Proof. exact global_neighbours_main. Qed.
Print Assumptions C04_global_neighbours.

(** C05: sum and difference of sites *)
Theorem C05_sum_diff :
  forall g rc, valid_grid g = true -> in_box rc (nRanksDir g) ->
  let t := label_all_sites g rc in
  forall b c, 0 <= b < locVol g -> 0 <= c < locVol g ->
  exists gb gc s d, glbCoordOfLoclx t b = Some gb /\ glbCoordOfLoclx t c = Some gc /\
    in_box s (glbSize g) /\ in_box d (glbSize g) /\
    (forall mu, (mu < 4)%nat -> s.[mu] = (gb.[mu] + gc.[mu]) mod (glbSize g).[mu] /\
                                d.[mu] = (gb.[mu] - gc.[mu]) mod (glbSize g).[mu]) /\
    glblxOfSum g t b c = Some (glblxOfCoord g s) /\ glblxOfSum g t c b = Some (glblxOfCoord g s) /\
    glblxOfDiff g t b c = Some (glblxOfCoord g d) /\
    (forall a, 0 <= a < locVol g -> glbCoordOfLoclx t a = Some s -> glblxOfDiff g t a c = Some (glblxOfCoord g gb)).
Proof. exact sum_diff_main. Qed.
Print Assumptions C05_sum_diff.

(** the opposite is right on the rank at the origin *)
Theorem C05_opposite_origin :
  forall g, valid_grid g = true -> let t := label_all_sites g [0;0;0;0] in
  forall b, 0 <= b < locVol g -> exists gb o, glbCoordOfLoclx t b = Some gb /\ in_box o (glbSize g) /\
    (forall mu, (mu < 4)%nat -> o.[mu] = (- gb.[mu]) mod (glbSize g).[mu]) /\ glblxOpp g t b = Some (glblxOfCoord g o).
Proof. exact opp_origin. Qed.
Print Assumptions C05_opposite_origin.

(** on any rank it is the difference from the first site of the rank, which is the opposite exactly on the rank at the origin *)
Theorem C05_opposite :
  forall g rc, valid_grid g = true -> in_box rc (nRanksDir g) -> let t := label_all_sites g rc in
  forall b, 0 <= b < locVol g -> exists gb d, glbCoordOfLoclx t b = Some gb /\ in_box d (glbSize g) /\
    (forall mu, (mu < 4)%nat -> d.[mu] = (rc.[mu] * (locSize g).[mu] - gb.[mu]) mod (glbSize g).[mu]) /\ glblxOpp g t b = Some (glblxOfCoord g d) /\
    ((forall mu, (mu < 4)%nat -> d.[mu] = (- gb.[mu]) mod (glbSize g).[mu]) <-> forall mu, (mu < 4)%nat -> rc.[mu] = 0).
Proof. exact opp_main. Qed.
Print Assumptions C05_opposite.

(** and wrong elsewhere: it subtracts from the first local site of the rank instead of the origin *)
Theorem C05_opposite_refuted :
  exists g rc b gb, valid_grid g = true /\ in_box rc (nRanksDir g) /\ 0 <= b < locVol g /\
    glbCoordOfLoclx (label_all_sites g rc) b = Some gb /\
    glblxOpp g (label_all_sites g rc) b <> Some (glblxOfCoord g (map2 (fun c n => (- c) mod n) gb (glbSize g))).
Proof. exact opp_wrong. Qed.
Print Assumptions C05_opposite_refuted.

(** C06: labels of local, border and edge sites *)
Theorem C06_labels :
  forall g, valid_grid g = true ->
  (forall y, ext_site g y -> (n_out g y <= 2)%nat ->
     match n_out g y with
     | 0%nat => 0 <= fullLxOfCoords g y < locVol g
     | 1%nat => locVol g <= fullLxOfCoords g y < locVol g + bordVol g /\
                (forall mu, (mu < 4)%nat -> (y.[mu] = -1 -> fullLxOfCoords g y < locVol g + bordVolh g) /\
                                            (y.[mu] = (locSize g).[mu] -> locVol g + bordVolh g <= fullLxOfCoords g y))
     | _ => locVol g + bordVol g <= fullLxOfCoords g y < locVol g + bordVol g + edgeVol g
     end) /\
  (forall y z, ext_site g y -> (n_out g y <= 2)%nat -> ext_site g z -> (n_out g z <= 2)%nat ->
     fullLxOfCoords g y = fullLxOfCoords g z -> y = z) /\
  (forall i, 0 <= i < locVol g + bordVol g + edgeVol g ->
     exists y, ext_site g y /\ (n_out g y <= 2)%nat /\ fullLxOfCoords g y = i) /\
  (forall y, ext_site g y -> (2 < n_out g y)%nat -> fullLxOfCoords g y = -1) /\
  (forall y z, map2 Z.modulo y (glbSize g) = map2 Z.modulo z (glbSize g) -> fullLxOfCoords g y = fullLxOfCoords g z).
Proof. exact labels_main. Qed.
Print Assumptions C06_labels.
Example C06_ex : fullLxOfCoords ex_grid [-1;2;1;0] = 260 /\ fullLxOfCoords ex_grid [4;0;0;0] = 144.
Proof. vm_compute. split; reflexivity. Qed.

(** C07: tables of global coordinates and indices *)
Theorem C07_tables :
  forall g rc, valid_grid g = true -> in_box rc (nRanksDir g) ->
  let t := label_all_sites g rc in
  forall i, 0 <= i < locVol g + bordVol g + edgeVol g ->
  exists y, ext_site g y /\ (n_out g y <= 2)%nat /\ fullLxOfCoords g y = i /\
    let gl := glblxOfCoord g (true_glb g rc y) in
    glbCoordOfLoclx t i = Some (true_glb g rc y) /\ in_box (true_glb g rc y) (glbSize g) /\
    (i < locVol g -> locCoordOfLoclx t i = Some y /\ glblxOfLoclx t i = Some gl /\ y = coordOfLx i (locSize g)) /\
    (locVol g <= i < locVol g + bordVol g ->
       glblxOfBordlx t (i - locVol g) = Some gl /\ loclxOfBordlx t (i - locVol g) = Some i) /\
    (locVol g + bordVol g <= i -> glblxOfEdgelx t (i - locVol g - bordVol g) = Some gl).
Proof. exact tables_main. Qed.
Print Assumptions C07_tables.

(** C08: neighbour tables of local and border sites *)
Theorem C08_neighbours :
  forall g rc, valid_grid g = true -> in_box rc (nRanksDir g) ->
  let t := label_all_sites g rc in
  (forall i mu up, 0 <= i < locVol g + bordVol g -> (mu < 4)%nat ->
     exists gc j, glbCoordOfLoclx t i = Some gc /\ loclxNeigh g rc t up i mu = Some j /\
     ((j = -1 /\ locVol g <= i) \/
      (0 <= j < locVol g + bordVol g + edgeVol g /\
       glbCoordOfLoclx t j = Some (periodic_shift (glbSize g) gc mu (if up then 1 else -1))))) /\
  (forall i mu up, 0 <= i < locVol g -> (mu < 4)%nat ->
     exists j, loclxNeigh g rc t up i mu = Some j /\ 0 <= j < locVol g + bordVol g /\
       loclxNeigh g rc t (negb up) j mu = Some i).
Proof. exact neighbours_main. Qed.
Print Assumptions C08_neighbours.

(** the same claim fails for edge sites: stepping outward gives the label of an unrelated site *)
Theorem C08_edges_refuted :
  exists g rc i mu gc j gj, valid_grid g = true /\ in_box rc (nRanksDir g) /\
    locVol g + bordVol g <= i < locVol g + bordVol g + edgeVol g /\
    glbCoordOfLoclx (label_all_sites g rc) i = Some gc /\
    loclxNeigh g rc (label_all_sites g rc) false i mu = Some j /\ j <> -1 /\
    glbCoordOfLoclx (label_all_sites g rc) j = Some gj /\ gj <> periodic_shift (glbSize g) gc mu (-1).
Proof. exact edge_neigh_wrong. Qed.
Print Assumptions C08_edges_refuted.

(** C09: bulk and surface lists *)
Theorem C09_bulk :
  forall g rc, valid_grid g = true -> in_box rc (nRanksDir g) ->
  let t := label_all_sites g rc in
  let stays up i := forall mu j, (mu < 4)%nat -> loclxNeigh g rc t up i mu = Some j -> j < locVol g in
  exists s, find_bulk_sites g t = Some s /\
    (forall i, In i (loclxOfBulklx s) <-> 0 <= i < locVol g /\ stays true i /\ stays false i) /\
    (forall i, In i (loclxOfSurflx s) <-> 0 <= i < locVol g /\ ~ (stays true i /\ stays false i)) /\
    (forall i, In i (loclxOfNonFwSurflx s) <-> 0 <= i < locVol g /\ stays true i) /\
    (forall i, In i (loclxOfFwSurflx s) <-> 0 <= i < locVol g /\ ~ stays true i) /\
    (forall i, In i (loclxOfNonBwSurflx s) <-> 0 <= i < locVol g /\ stays false i) /\
    (forall i, In i (loclxOfBwSurflx s) <-> 0 <= i < locVol g /\ ~ stays false i) /\
    Forall (Sorted.StronglySorted Z.lt)
      [loclxOfBulklx s; loclxOfSurflx s; loclxOfNonFwSurflx s; loclxOfFwSurflx s; loclxOfNonBwSurflx s; loclxOfBwSurflx s].
Proof. exact bulk_main. Qed.
Print Assumptions C09_bulk.

(** C18: boxes tile the local volume *)
Theorem C18_boxes :
  forall g, valid_grid g = true ->
  (forall ibox isub, 0 <= ibox < 16 -> 0 <= isub < nsite_per_box g ibox -> 0 <= box_site g ibox isub < locVol g) /\
  (forall ibox isub jbox jsub, 0 <= ibox < 16 -> 0 <= isub < nsite_per_box g ibox ->
     0 <= jbox < 16 -> 0 <= jsub < nsite_per_box g jbox ->
     box_site g ibox isub = box_site g jbox jsub -> ibox = jbox /\ isub = jsub) /\
  (forall i, 0 <= i < locVol g ->
     exists ibox isub, 0 <= ibox < 16 /\ 0 <= isub < nsite_per_box g ibox /\ box_site g ibox isub = i) /\
  (forall ibox, 0 <= ibox < 16 -> 0 < nsite_per_box g ibox).
Proof. exact boxes_main. Qed.
Print Assumptions C18_boxes.

(** C19: mirrored coordinates *)
Theorem C19_mirror :
  forall g c imir, valid_grid g = true -> in_box c (glbSize g) ->
  let m := get_mirrorized_site_coords g c imir in
  in_box m (glbSize g) /\
  (forall mu, (mu < 4)%nat -> m.[mu] = if Z.testbit imir (Z.of_nat mu) then (- c.[mu]) mod (glbSize g).[mu] else c.[mu]) /\
  get_mirrorized_site_coords g m imir = c /\
  (forall jmir, get_mirrorized_site_coords g m jmir = get_mirrorized_site_coords g c (Z.lxor imir jmir)).
Proof. exact mirror_main. Qed.
Print Assumptions C19_mirror.

(** C20: staggered phases *)
Theorem C20_stagphases :
  forall G x, length G = 4%nat -> in_box x G ->
  (forall mu, (mu < 4)%nat ->
     (getStagphases x).[mu] = getStagphase x mu /\
     getStagphase x mu = if Z.even (sumZ (firstn mu x)) then 1 else -1) /\
  ((forall k, (k < 4)%nat -> Z.even G.[k] = true) ->
   forall mu nu, (mu < 4)%nat -> (nu < 4)%nat -> mu <> nu ->
     getStagphase x mu * getStagphase (periodic_shift G x mu 1) nu *
     getStagphase (periodic_shift G x nu 1) mu * getStagphase x nu = -1).
Proof. exact stag_main. Qed.
Print Assumptions C20_stagphases.
Example C20_ex : getStagphase [1;3;2;0] 2 = 1 /\ getStagphase [1;2;2;0] 3 = -1. Proof. split; reflexivity. Qed.
