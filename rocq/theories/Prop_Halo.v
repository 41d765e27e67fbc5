(** Property theorems C10-C15: halo and edge exchange, even/odd geometry.  Each theorem is closed by [exact]. *)
From Verif Require Import Base GeometryModel GeometrySpec HaloModel HaloProofs EdgeProofs EoModel EoHalo Eo_final Prop_Geometry.

(** an even grid: 8x4x12x4 lattice over 2x2x3x1 ranks, local lattice 4x2x4x4 *)
Definition ex_eo_grid : grid := mkGrid [8;4;12;4] [2;2;3;1].
Example ex_eo_valid : valid_grid ex_eo_grid = true /\ eo_grid_ok ex_eo_grid = true. Proof. vm_compute. auto. Qed.

(** C10: after the halo update every border site holds the value of the rank owning it.
    sched q is the order in which rank q happens to execute the parallel loop building its surface table:
    any order visiting all the local sites.  The update also never hangs nor mismatches messages (Some). *)
Theorem C10_halo :
  forall (A : Type) g, valid_grid g = true ->
  forall (sched : Z -> list Z) (data : Z -> table A),
  (forall q, 0 <= q < nranks g -> forall i, In i (sched q) <-> 0 <= i < locVol g) ->
  forall r, 0 <= r < nranks g ->
  exists d', updateHalo g sched data r = Some d' /\
    (forall i, ~ (locVol g <= i < locVol g + bordVol g) -> d' i = data r i) /\
    (forall i, locVol g <= i < locVol g + bordVol g ->
       exists gc r' i', glbCoordOfLoclx (rank_labels g r) i = Some gc /\
         getLoclxAndRankOfCoords g gc = (r', i') /\ 0 <= r' < nranks g /\ 0 <= i' < locVol g /\ d' i = data r' i').
Proof. exact (fun A g Hv => @halo_main g Hv A). Qed.
Print Assumptions C10_halo.
(** each rank stores its rank and site number; what rank 5 finds on its border *)
Definition ex_data (r : Z) : table (Z * Z) := fun i => if (0 <=? i) && (i <? locVol ex_grid) then Some (r, i) else None.
Example C10_ex :
  (forall i, In i (seqZ (locVol ex_grid)) <-> 0 <= i < locVol ex_grid) /\ 0 <= 5 < nranks ex_grid /\
  option_map (fun d => map d [63; 64; 100; 223; 224]) (updateHalo ex_grid (fun _ => seqZ (locVol ex_grid)) ex_data 5)
  = Some [Some (5, 63); Some (11, 48); Some (2, 44); Some (3, 59); None].
Proof. split; [intros; apply in_seqZ|]. split; [vm_compute; split; [discriminate|reflexivity]|]. vm_compute. reflexivity. Qed.

(** C11: same for the edge sites *)
Theorem C11_edges :
  forall (A : Type) g, valid_grid g = true ->
  forall (sched : Z -> list Z) (data : Z -> table A),
  (forall q, 0 <= q < nranks g -> forall i, In i (sched q) <-> 0 <= i < locVol g) ->
  forall r, 0 <= r < nranks g ->
  exists d', updateEdges g sched data r = Some d' /\
    (forall i, ~ (locVol g + bordVol g <= i < locVol g + bordVol g + edgeVol g) -> d' i = data r i) /\
    (forall i, locVol g + bordVol g <= i < locVol g + bordVol g + edgeVol g ->
       exists gc r' i', glbCoordOfLoclx (rank_labels g r) i = Some gc /\
         getLoclxAndRankOfCoords g gc = (r', i') /\ 0 <= r' < nranks g /\ 0 <= i' < locVol g /\ d' i = data r' i').
Proof. exact (fun A g Hv => @edges_main g Hv A). Qed.
Print Assumptions C11_edges.
Example C11_ex :
  option_map (fun d => map d [0; 224; 300; 351; 352]) (updateEdges ex_grid (fun _ => seqZ (locVol ex_grid)) ex_data 5)
  = Some [Some (5, 0); Some (8, 56); Some (10, 12); Some (0, 51); None].
Proof. vm_compute. reflexivity. Qed.

(** C12: even/odd labels *)
Theorem C12_eo_labels :
  forall g rc, valid_grid g = true -> eo_grid_ok g = true -> in_box rc (nRanksDir g) ->
  let t := label_all_sites g rc in let e := set_eo_geometry g t in
  let tot := locVol g + bordVol g + edgeVol g in
  (forall i, 0 <= i < tot ->
     exists gc p k, glbCoordOfLoclx t i = Some gc /\ p = (sumZ gc) mod 2 /\
       loclx_parity e i = Some p /\ loceo_of_loclx e i = Some k /\ loclx_of_loceo e p k = Some i /\
       (i < locVol g <-> k < locVolh g) /\ 0 <= k /\
       (locVol g <= i < locVol g + bordVol g <-> locVolh g <= k < locVolh g + bordVolh g) /\
       (locVol g + bordVol g <= i <-> locVolh g + bordVolh g <= k) /\ k < locVolh g + bordVolh g + edgeVolh g) /\
  (forall p k, p = 0 \/ p = 1 -> 0 <= k < locVolh g + bordVolh g + edgeVolh g ->
     exists i, 0 <= i < tot /\ loclx_of_loceo e p k = Some i /\ loclx_parity e i = Some p /\ loceo_of_loclx e i = Some k) /\
  2 * locVolh g = locVol g /\ 2 * bordVolh g = bordVol g /\ 2 * edgeVolh g = edgeVol g.
Proof. exact eo_bijection_main. Qed.
Print Assumptions C12_eo_labels.
Example C12_ex : let e := rank_eo ex_eo_grid 7 in
  (loclx_parity e 33, loceo_of_loclx e 33, loclx_of_loceo e 1 16) = (Some 0, Some 16, Some 32).
Proof. vm_compute. reflexivity. Qed.

(** C13: splitting in even/odd parts and pasting *)
Theorem C13_split_paste :
  forall A g rc, valid_grid g = true -> eo_grid_ok g = true -> in_box rc (nRanksDir g) ->
  let e := set_eo_geometry g (label_all_sites g rc) in
  forall (sl : list Z) (se : Z -> list Z),
  (forall i, In i sl <-> 0 <= i < locVol g) ->
  (forall p, p = 0 \/ p = 1 -> forall k, In k (se p) <-> 0 <= k < locVolh g) ->
  (* lx -> eo -> lx *)
  (forall (inLx outLx : table A) (outEo : Z -> table A), (forall i, 0 <= i < locVol g -> inLx i <> None) ->
     forall i, 0 <= i < locVol g ->
     paste_eo_parts_into_lx_vector e se outLx (split_lx_vector_into_eo_parts e sl outEo inLx) i = inLx i) /\
  (* eo -> lx -> eo *)
  (forall (inEo outEo : Z -> table A) (outLx : table A), (forall p k, p = 0 \/ p = 1 -> 0 <= k < locVolh g -> inEo p k <> None) ->
     forall p k, p = 0 \/ p = 1 -> 0 <= k < locVolh g ->
     split_lx_vector_into_eo_parts e sl outEo (paste_eo_parts_into_lx_vector e se outLx inEo) p k = inEo p k) /\
  (* one half only *)
  (forall (inLx out : table A) p, p = 0 \/ p = 1 -> (forall i, 0 <= i < locVol g -> inLx i <> None) ->
     forall k, 0 <= k < locVolh g -> exists i, loclx_of_loceo e p k = Some i /\ 0 <= i < locVol g /\
     get_evn_or_odd_part e (se p) out inLx p k = inLx i).
Proof. exact split_paste_main. Qed.
Print Assumptions C13_split_paste.
Example C13_ex : let e := rank_eo ex_eo_grid 7 in let n := locVol ex_eo_grid in
  map (paste_eo_parts_into_lx_vector e (fun _ => seqZ (locVolh ex_eo_grid)) tempty
        (split_lx_vector_into_eo_parts e (rev (seqZ n)) (fun _ => tempty) (fun i => Some (i * i)))) [0; 5; 127] = [Some 0; Some 25; Some 16129].
Proof. vm_compute. reflexivity. Qed.

(** C14: even/odd neighbours *)
Theorem C14_eo_neighbours :
  forall g rc, valid_grid g = true -> eo_grid_ok g = true -> in_box rc (nRanksDir g) ->
  let t := label_all_sites g rc in let e := set_eo_geometry g t in
  (forall i mu up, 0 <= i < locVol g -> (mu < 4)%nat ->
  exists p k j k', loclx_parity e i = Some p /\ (p = 0 \/ p = 1) /\ loceo_of_loclx e i = Some k /\
    loclxNeigh g rc t up i mu = Some j /\ loclx_parity e j = Some (1 - p) /\
    loceo_neigh g rc t e up mu p k = Some k' /\ loclx_of_loceo e (1 - p) k' = Some j) /\
  (forall i mu up, locVol g <= i < locVol g + bordVol g -> (mu < 4)%nat ->
  exists j, loclxNeigh g rc t up i mu = Some j /\ 
   (j = -1 \/ exists p k k', loclx_parity e i = Some p /\ loceo_of_loclx e i = Some k /\ loclx_parity e j = Some (1 - p) /\
    loceo_neigh g rc t e up mu p k = Some k' /\ loclx_of_loceo e (1 - p) k' = Some j)).
Proof. exact eo_neigh_main. Qed.
Print Assumptions C14_eo_neighbours.

(** C15: halo and edge update of the even or odd part *)
Theorem C15_halo_eo :
  forall (A : Type) g, valid_grid g = true -> eo_grid_ok g = true ->
  forall (sched : Z -> list Z) (par : Z) (data : Z -> table A),
  par = 0 \/ par = 1 ->
  (forall q, 0 <= q < nranks g -> forall i, In i (sched q) <-> 0 <= i < locVol g) ->
  forall r, 0 <= r < nranks g ->
  exists d', updateHaloEo g sched par data r = Some d' /\
    (forall e, ~ (locVolh g <= e < locVolh g + bordVolh g) -> d' e = data r e) /\
    (forall e, locVolh g <= e < locVolh g + bordVolh g ->
       exists i gc r' i' e', loclx_of_loceo (rank_eo g r) par e = Some i /\
         glbCoordOfLoclx (rank_labels g r) i = Some gc /\
         getLoclxAndRankOfCoords g gc = (r', i') /\ 0 <= r' < nranks g /\ 0 <= i' < locVol g /\
         loclx_parity (rank_eo g r') i' = Some par /\ loceo_of_loclx (rank_eo g r') i' = Some e' /\ 0 <= e' < locVolh g /\
         d' e = data r' e').
Proof. exact (fun A g Hv Heo => @halo_eo_main g Hv Heo A). Qed.
Print Assumptions C15_halo_eo.

Theorem C15_edges_eo :
  forall (A : Type) g, valid_grid g = true -> eo_grid_ok g = true ->
  forall (sched : Z -> list Z) (par : Z) (data : Z -> table A),
  par = 0 \/ par = 1 ->
  (forall q, 0 <= q < nranks g -> forall i, In i (sched q) <-> 0 <= i < locVol g) ->
  forall r, 0 <= r < nranks g ->
  exists d', updateEdgesEo g sched par data r = Some d' /\
    (forall e, ~ (locVolh g + bordVolh g <= e < locVolh g + bordVolh g + edgeVolh g) -> d' e = data r e) /\
    (forall e, locVolh g + bordVolh g <= e < locVolh g + bordVolh g + edgeVolh g ->
       exists i gc r' i' e', loclx_of_loceo (rank_eo g r) par e = Some i /\
         glbCoordOfLoclx (rank_labels g r) i = Some gc /\
         getLoclxAndRankOfCoords g gc = (r', i') /\ 0 <= r' < nranks g /\ 0 <= i' < locVol g /\
         loclx_parity (rank_eo g r') i' = Some par /\ loceo_of_loclx (rank_eo g r') i' = Some e' /\ 0 <= e' < locVolh g /\
         d' e = data r' e').
Proof. exact (fun A g Hv Heo => @edges_eo_main g Hv Heo A). Qed.
Print Assumptions C15_edges_eo.
