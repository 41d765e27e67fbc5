(** Property theorems C21-C24, C58: reordering of the sites and all-to-all communication. *)
From Verif Require Import Base GeometryModel GeometrySpec GeometryProofs OwnerProofs HaloModel
  AllToAllModel AllToAllSpec AllToAllSetup AllToAllRemap IldgModel IldgProofs RemapMain LocdMain TopoMain FftLocd.

(** the ILDG grid used in the examples: number of ranks dividing the time extent *)
Definition t_grid : grid := mkGrid [8;4;4;2] [2;2;1;1].
Example t_grid_ok : valid_grid t_grid = true /\ glb_fits_int t_grid /\ Z.rem (glbSize t_grid).[0] (nranks t_grid) = 0.
Proof. unfold glb_fits_int, int_max. vm_compute. repeat split; congruence. Qed.

(** C21: the two ILDG reorderings are inverse of each other and put each site at its place in the file *)
Theorem C21_ildg_order :
  forall g, valid_grid g = true -> prodZ (glbSize g) <= 2 ^ 31 ->
  (forall r i, 0 <= r < nranks g -> 0 <= i < locVol g ->
     exists x q j, glb_coords g r i = Some x /\ index_to_ILDG g r i = Some (q, j) /\ 0 <= q < nranks g /\ 0 <= j < locVol g /\
       q * locVol g + j = ((x.[0] * (glbSize g).[3] + x.[3]) * (glbSize g).[2] + x.[2]) * (glbSize g).[1] + x.[1] /\
       index_from_ILDG g q j = (r, i)) /\
  (forall q j, 0 <= q < nranks g -> 0 <= j < locVol g ->
     exists r i, index_from_ILDG g q j = (r, i) /\ 0 <= r < nranks g /\ 0 <= i < locVol g /\ index_to_ILDG g r i = Some (q, j)).
Proof. exact ildg_main. Qed.
Print Assumptions C21_ildg_order.
Example C21_ex : index_to_ILDG t_grid 3 5 = Some (2, 26) /\ index_from_ILDG t_grid 2 26 = (3, 5). Proof. vm_compute. split; reflexivity. Qed.

(** C22: elements scattered according to a list reach their destination, whatever the order of the parallel loops.
    The codes are distinct, each rank obtains as many elements as it sends, and the local part is right. *)
Theorem C22_scatter :
  forall N, 0 < N -> forall sl : Z -> list (Z * Z),
  (forall r p, 0 <= r < N -> In p (sl r) -> 0 <= snd p <= int_max) ->
  (forall r, 0 <= r < N -> NoDup (map snd (sl r))) ->
  (forall r q p p', 0 <= r < N -> 0 <= q < N -> In p (sl r) -> In p' (sl q) -> snd p = snd p' -> r = q) ->
  (forall r, 0 <= r < N -> received N sl r = Z.of_nat (length (sl r))) ->
  (forall r, 0 <= r < N -> local_part_right N (moved N sl) r) ->
  forall (A : Type) (sched : Z -> list Z) (input : Z -> table A) (out : table A),
  (forall n i, In i (sched n) <-> 0 <= i < n) ->
  forall r, 0 <= r < N ->
  exists out', communicate (setup_scatter N sl) sched input out r = Some out' /\
    (forall q s c, 0 <= q < N -> In (s, c) (sl q) -> c mod N = r -> out' (c / N) = input q s) /\
    (forall d, (forall q s c, 0 <= q < N -> In (s, c) (sl q) -> c mod N = r -> c / N <> d) -> out' d = out d).
Proof. exact (fun N HN sl H1 H2 H3 H4 H5 A => @scatter_main N HN sl H1 H2 H3 H4 H5 A). Qed.
Print Assumptions C22_scatter.

(** and those gathered are found where asked *)
Theorem C22_gather :
  forall N, 0 < N -> forall gl : Z -> list (Z * Z),
  (forall r p, 0 <= r < N -> In p (gl r) -> 0 <= fst p <= int_max /\ 0 <= snd p) ->
  (forall r, 0 <= r < N -> NoDup (map snd (gl r))) ->
  (forall r, 0 <= r < N -> asked_from N gl r = Z.of_nat (length (gl r))) ->
  (forall r, 0 <= r < N -> local_part_right N (fun p q => asked N gl q p) r) ->
  forall (A : Type) (sched : Z -> list Z) (input : Z -> table A) (out : table A),
  (forall n i, In i (sched n) <-> 0 <= i < n) ->
  forall r, 0 <= r < N ->
  exists out', communicate (setup_gather N gl) sched input out r = Some out' /\
    (forall c d, In (c, d) (gl r) -> out' d = input (c mod N) (c / N)) /\
    (forall d, (forall c, ~ In (c, d) (gl r)) -> out' d = out d).
Proof. exact (fun N HN gl H1 H2 H3 H4 A => @gather_main N HN gl H1 H2 H3 H4 A). Qed.
Print Assumptions C22_gather.

(** vector_remap_t with a one-to-one index map between ranks holding the same number of elements *)
Theorem C22_remap :
  forall N n, 0 < N -> 0 <= n -> forall index : Z -> Z -> Z * Z,
  (forall r i, 0 <= r < N -> 0 <= i < n -> 0 <= fst (index r i) < N /\ 0 <= snd (index r i) < n) ->
  (forall r i r' i', 0 <= r < N -> 0 <= i < n -> 0 <= r' < N -> 0 <= i' < n -> index r i = index r' i' -> r = r' /\ i = i') ->
  N * n <= int_max + 1 ->
  forall (A : Type) (nel : Z -> Z) (sched : Z -> list Z) (input : Z -> table A) (out : table A),
  (forall r, 0 <= r < N -> nel r = n) ->
  (forall r, 0 <= r < N -> local_part_right N (fun r q => Z.of_nat (length (filter (fun i => fst (index r i) =? q) (seqZ n)))) r) ->
  (forall m i, In i (sched m) <-> 0 <= i < m) ->
  forall r, 0 <= r < N ->
  exists out', remap N nel index sched input out r = Some out' /\
    (forall q i, 0 <= q < N -> 0 <= i < n -> fst (index q i) = r -> out' (snd (index q i)) = input q i) /\
    (forall d, (forall q i, 0 <= q < N -> 0 <= i < n -> index q i <> (r, d)) -> out' d = out d).
Proof. exact (fun N n HN Hn index H1 H2 H3 A => @remap_main N n HN Hn index H1 H2 H3 A). Qed.
Print Assumptions C22_remap.

(** the condition on the local part holds when each pair of ranks exchanges the same number of elements *)
Theorem C22_symmetric :
  forall N (m : Z -> Z -> Z) r, 0 <= r < N -> (forall q, 0 <= q < N -> m r q = m q r) -> local_part_right N m r.
Proof. exact local_right_sym. Qed.
Print Assumptions C22_symmetric.

(** in particular ILDG reading and writing deliver each site when the number of ranks divides the time extent *)
Theorem C22_ildg :
  forall g, valid_grid g = true -> glb_fits_int g -> Z.rem (glbSize g).[0] (nranks g) = 0 ->
  forall (A : Type) (sched : Z -> list Z) (input : Z -> table A) (out : table A),
  (forall m i, In i (sched m) <-> 0 <= i < m) -> forall r, 0 <= r < nranks g ->
  (exists out', ildg_write_remap g sched input out r = Some out' /\
     forall q i j, 0 <= q < nranks g -> 0 <= i < locVol g -> index_to_ILDG g q i = Some (r, j) -> out' j = input q i) /\
  (exists out', ildg_read_remap g sched input out r = Some out' /\
     forall q i j, 0 <= q < nranks g -> 0 <= i < locVol g -> index_from_ILDG g q i = (r, j) -> out' j = input q i).
Proof. exact ildg_remap_main. Qed.
Print Assumptions C22_ildg.

(** otherwise the data can be corrupted.  On a 2x2x6x4 lattice over 1x1x3x2 ranks writing accesses a vector out of its
    bounds, and reading leaves sites with undefined content *)
Definition bad_grid : grid := mkGrid [2;2;6;4] [1;1;3;2].
Theorem C22_ildg_refuted :
  valid_grid bad_grid = true /\ glb_fits_int bad_grid /\
  ildg_write_remap bad_grid seqZ (fun r i => Some (100 * r + i)) tempty 5 = None /\
  exists q i j out', 0 <= q < nranks bad_grid /\ 0 <= i < locVol bad_grid /\ index_from_ILDG bad_grid q i = (5, j) /\
    ildg_read_remap bad_grid seqZ (fun r i => Some (100 * r + i)) tempty 5 = Some out' /\ out' j <> Some (100 * q + i).
Proof.
  split; [vm_compute; reflexivity|]. split; [unfold glb_fits_int, int_max; vm_compute; congruence|]. split; [vm_compute; reflexivity|].
  assert (H : option_map (fun t : table Z => t 13) (ildg_read_remap bad_grid seqZ (fun r i => Some (100 * r + i)) tempty 5) = Some None) by (vm_compute; reflexivity).
  exists 5, 13, 13. destruct (ildg_read_remap bad_grid seqZ (fun r i => Some (100 * r + i)) tempty 5) as [o|]; [|discriminate H]. exists o.
  split; [vm_compute; split; congruence|]. split; [vm_compute; split; congruence|]. split; [vm_compute; reflexivity|]. split; [reflexivity|].
  cbn [option_map] in H. congruence.
Qed.
Print Assumptions C22_ildg_refuted.

(** C23: one direction made local.  Sites of a line are consecutive, ordered by the coordinate; lines in lexicographic order *)
Theorem C23_locd :
  forall g, valid_grid g = true -> glb_fits_int g -> forall mu, (mu < 4)%nat ->
  (forall r i, 0 <= r < nranks g -> 0 <= i < locVol g ->
     exists x q j, glb_coords g r i = Some x /\ locd_make g mu r i = Some (q, j) /\ 0 <= q < nranks g /\ 0 <= j < locd_size g mu q /\
       j mod (glbSize g).[mu] = x.[mu] /\
       (let ds := filter (fun nu => negb (nu =? mu)%nat) [0;1;2;3]%nat in
        q * max_locd_perp_size g mu + j / (glbSize g).[mu] = row_major (map (fun nu => x.[nu]) ds) (map (fun nu => (glbSize g).[nu]) ds)) /\
       locd_unmake g mu q j = (r, i)) /\
  (forall q j, 0 <= q < nranks g -> 0 <= j < locd_size g mu q ->
     exists r i, locd_unmake g mu q j = (r, i) /\ 0 <= r < nranks g /\ 0 <= i < locVol g /\ locd_make g mu r i = Some (q, j)).
Proof. exact locd_main. Qed.
Print Assumptions C23_locd.
Example C23_ex : locd_make t_grid 1 3 5 = Some (2, 22) /\ locd_unmake t_grid 1 2 22 = (3, 5). Proof. vm_compute. split; reflexivity. Qed.

(** the two remappings deliver the data when there is one rank, or the number of ranks divides the first of the other sides *)
Theorem C23_delivery :
  forall g, valid_grid g = true -> glb_fits_int g -> forall mu, (mu < 4)%nat ->
  nranks g = 1 \/ Z.rem (glbSize g).[if Nat.eqb mu 0 then 1%nat else 0%nat] (nranks g) = 0 ->
  forall (A : Type) (sched : Z -> list Z) (input : Z -> table A) (out : table A),
  (forall m i, In i (sched m) <-> 0 <= i < m) -> forall r, 0 <= r < nranks g ->
  (exists out', lx_to_locd g mu sched input out r = Some out' /\
     forall q i j, 0 <= q < nranks g -> 0 <= i < locVol g -> locd_make g mu q i = Some (r, j) -> out' j = input q i) /\
  (exists out', locd_to_lx g mu sched input out r = Some out' /\
     forall q i j, 0 <= q < nranks g -> 0 <= i < locd_size g mu q -> locd_unmake g mu q i = (r, j) -> out' j = input q i).
Proof.
  intros g Hv Hf mu Hmu H. change (locd_delivers g mu). destruct H as [H|H].
  - now apply locd_remap_one.
  - destruct (Nat.eqb_spec mu 0) as [->|Hne]; [now apply locd_remap_time|]. unfold locd_delivers. apply locd_remap_main; assumption.
Qed.
Print Assumptions C23_delivery.

(** when it does not divide the number of lines the ranks do not receive what they send, and elements are lost *)
Definition odd_grid : grid := mkGrid [2;2;2;6] [1;1;1;3].
Theorem C23_unbalanced_refuted :
  valid_grid odd_grid = true /\ glb_fits_int odd_grid /\
  exists q i j out', 0 <= q < nranks odd_grid /\ 0 <= i < locVol odd_grid /\ locd_make odd_grid 3 q i = Some (0, j) /\
    lx_to_locd odd_grid 3 seqZ (fun r i => Some (100 * r + i)) tempty 0 = Some out' /\ out' j <> Some (100 * q + i).
Proof.
  split; [vm_compute; reflexivity|]. split; [unfold glb_fits_int, int_max; vm_compute; congruence|].
  assert (H : option_map (fun t : table Z => t 16) (lx_to_locd odd_grid 3 seqZ (fun r i => Some (100 * r + i)) tempty 0) = Some None) by (vm_compute; reflexivity).
  exists 2, 4, 16. destruct (lx_to_locd odd_grid 3 seqZ (fun r i => Some (100 * r + i)) tempty 0) as [o|]; [|discriminate H]. exists o.
  split; [vm_compute; split; congruence|]. split; [vm_compute; split; congruence|]. split; [vm_compute; reflexivity|]. split; [reflexivity|].
  cbn [option_map] in H. congruence.
Qed.
Print Assumptions C23_unbalanced_refuted.

(** C24: whatever the sequence of requests, each code is asked once, the positions are consecutive after the local links,
    and a request keeps its position in all the later lists *)
Theorem C24_gathering_list :
  forall g rank reqs more x mu,
  let l := fold_left (fun l q => snd (add_conf_link_for_paths g rank l (fst q) (snd q))) reqs [] in
  let '(p, l1) := add_conf_link_for_paths g rank l x mu in
  let l2 := fold_left (fun l q => snd (add_conf_link_for_paths g rank l (fst q) (snd q))) more l1 in
  NoDup (map fst l2) /\ map snd l2 = rev (map (fun k => 4 * locVol g + k) (seqZ (Z.of_nat (length l2)))) /\
  (let '(v, k) := getLoclxAndRankOfCoords g x in
   if k =? rank then p = 4 * v + mu else In ((4 * v + mu) * nranks g + k, p) l2).
Proof.
  intros g rank reqs more x mu.
  assert (H0 : list_ok g []) by (split; [constructor|reflexivity]).
  destruct (adds_ok g rank reqs [] H0) as [H1 _]. unfold adds in H1. set (l := fold_left _ reqs []) in *. cbv zeta.
  pose proof (add_ok g rank l x mu H1) as [H2 _]. pose proof (add_result g rank l x mu H1) as H3.
  destruct (add_conf_link_for_paths g rank l x mu) as [p l1]. cbn [snd] in *.
  destruct (adds_ok g rank more l1 H2) as [[H4 H5] H6]. unfold adds in *. split; [exact H4|]. split; [exact H5|].
  destruct (getLoclxAndRankOfCoords g x) as [v k]. destruct (k =? rank); [exact H3|]. now apply H6.
Qed.
Print Assumptions C24_gathering_list.

(** but the code asked is not the one of the link: the site at x belongs to rank 1, the request is taken as local to rank 0 *)
Theorem C24_owner_refuted :
  exists g rank x mu, valid_grid g = true /\ in_box x (glbSize g) /\ rankHostingSiteOfCoords g x <> rank /\
    add_conf_link_for_paths g rank [] x mu = (4 * 1 + mu, []).
Proof.
  exists (mkGrid [4;2;2;2] [2;1;1;1]), 0, [2;0;0;0], 2. split; [reflexivity|]. split; [apply in_boxb_spec; reflexivity|]. split; [vm_compute; congruence|reflexivity].
Qed.
Print Assumptions C24_owner_refuted.

(** C58: topological correlator remapping: one-to-one, and the first sextant in lexicographic order at the beginning *)
Theorem C58_topo :
  forall g, valid_grid g = true -> glb_fits_int g -> (forall mu, (mu < 4)%nat -> Z.even (glbSize g).[mu] = true) ->
  (forall r i, 0 <= r < nranks g -> 0 <= i < locVol g ->
     exists q j, index_to_topo g r i = Some (q, j) /\ 0 <= q < nranks g /\ 0 <= j < locVol g) /\
  (forall r i r' i' p, 0 <= r < nranks g -> 0 <= i < locVol g -> 0 <= r' < nranks g -> 0 <= i' < locVol g ->
     index_to_topo g r i = Some p -> index_to_topo g r' i' = Some p -> r = r' /\ i = i') /\
  (forall r i x, 0 <= r < nranks g -> 0 <= i < locVol g -> glb_coords g r i = Some x ->
     (forall mu, (mu < 4)%nat -> x.[mu] <= (glbSize g).[mu] / 2) ->
     exists q j, index_to_topo g r i = Some (q, j) /\
       q * locVol g + j = row_major x (map (fun n => n / 2 + 1) (glbSize g))).
Proof. exact topo_main. Qed.
Print Assumptions C58_topo.

(** with an odd extent the map is not one-to-one *)
Theorem C58_odd_refuted :
  exists g r i r' i' p, valid_grid g = true /\ 0 <= r < nranks g /\ 0 <= i < locVol g /\ 0 <= r' < nranks g /\ 0 <= i' < locVol g /\ i <> i' /\
    index_to_topo g r i = Some p /\ index_to_topo g r' i' = Some p.
Proof. exists (mkGrid [2;2;2;3] [1;1;1;1]), 0, 2, 0, 5, (0, 16). vm_compute. repeat split; congruence. Qed.
Print Assumptions C58_odd_refuted.
