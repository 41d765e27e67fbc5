(** Halo and edge exchange: surface tables (geometry_lx.cpp), message lists (base/field.cpp)
    and buffer filling (base/field.hpp), for all the ranks together.
    A field is a table from site index to the value of the site (all the internal degrees of
    freedom of a site travel together: the buffers are indexed by internalDeg+nInternalDegs*i,
    field.hpp:1138-1147 and 1208-1216, and bps is the number of bytes of a site). *)
From Verif Require Import Base GeometryModel.

(** geometry_lx.cpp:285-304  bordlx_of_surflx; -1 when the site is not on that surface.
    None: an unwritten table entry is read.  (The CRASH for sides below 2 is excluded by valid_grid.) *)
Definition bordlx_of_surflx (g : grid) (rc : list Z) (t : labels) (loclx : Z) (mu : nat) : option Z :=
  if negb (isDirParallel g mu) then Some (-1)
  else match locCoordOfLoclx t loclx with
       | None => None
       | Some x =>
           if x.[mu] =? 0 then option_map (fun n => n - locVol g) (loclxNeigh g rc t false loclx mu)
           else if x.[mu] =? (locSize g).[mu] - 1 then option_map (fun n => n - locVol g) (loclxNeigh g rc t true loclx mu)
           else Some (-1)
       end.

(** geometry_lx.cpp:307-345  edgelx_of_surflx *)
Definition edgelx_of_surflx (g : grid) (rc : list Z) (t : labels) (loclx : Z) (iEdge : nat) : option Z :=
  let '(mu, nu) := edge_dir iEdge in
  if negb (isDirParallel g mu && isDirParallel g nu) then Some (-1)
  else match locCoordOfLoclx t loclx with
       | None => None
       | Some x =>
           if Z.rem x.[mu] ((locSize g).[mu] - 1) =? 0 then
             match loclxNeigh g rc t (negb (x.[mu] =? 0)) loclx mu with
             | None => None
             | Some m =>
                 if Z.rem x.[nu] ((locSize g).[nu] - 1) =? 0 then
                   option_map (fun e => e - locVol g - bordVol g) (loclxNeigh g rc t (negb (x.[nu] =? 0)) m nu)
                 else Some (-1)
             end
           else Some (-1)
       end.

(** geometry_lx.cpp:427-438  findSurfOfBord.  The sites are visited by a parallel loop:
    sched is the order in which the iterations happen to be executed. *)
Definition findSurfOfBord (g : grid) (rc : list Z) (t : labels) (sched : list Z) : table Z :=
  fold_left (fun s (p : Z * nat) =>
    match bordlx_of_surflx g rc t (fst p) (snd p) with
    | Some b => if b =? -1 then s else tset s b (fst p)
    | None => s
    end) (list_prod sched dirs) tempty.

(** geometry_lx.cpp:441-454  findSurfOfEdges *)
Definition findSurfOfEdges (g : grid) (rc : list Z) (t : labels) (sched : list Z) : table Z :=
  fold_left (fun s (p : Z * nat) =>
    match edgelx_of_surflx g rc t (fst p) (snd p) with
    | Some b => if b =? -1 then s else tset s b (fst p)
    | None => s
    end) (list_prod sched (seq 0 nEdges)) tempty.

(** a message as passed to MPI_Isend / MPI_Irecv: peer rank, tag, offset in the buffer, length (in sites) *)
Record msg := mkMsg { peer : Z; tag : Z; off : Z; len : Z }.

(** base/field.cpp:11-61  startBufHaloNeighExchange (dirs unset: all directions).
    divCoeff is 1 for full fields and 2 for even/odd parts. *)
Definition halo_msg (g : grid) (rc : list Z) (divCoeff : Z) (mu : nat) (sendOri ori : Z) : msg :=
  mkMsg (rankNeigh g rc (ori =? 1) mu) (sendOri + 2 * Z.of_nat mu)
        (Z.quot (bordOffset g mu + bordVolh g * ori) divCoeff) (Z.quot (bordDirVol g mu) divCoeff).
Definition halo_loop : list (nat * Z) := list_prod dirs [0; 1].
Definition halo_sends (g : grid) (rc : list Z) (divCoeff : Z) : list msg :=
  map (fun '(mu, sendOri) => halo_msg g rc divCoeff mu sendOri sendOri)
      (filter (fun p => isDirParallel g (fst p)) halo_loop).
Definition halo_recvs (g : grid) (rc : list Z) (divCoeff : Z) : list msg :=
  map (fun '(mu, sendOri) => halo_msg g rc divCoeff mu sendOri (1 - sendOri))
      (filter (fun p => isDirParallel g (fst p)) halo_loop).

(** init.cpp:716-727  rank_edge_neigh *)
Definition rank_edge_neigh (g : grid) (rc : list Z) (bf1 bf2 : Z) (iEdge : nat) : Z :=
  let '(mu, nu) := edge_dir iEdge in
  let c := upd rc mu (Z.rem (rc.[mu] + (nRanksDir g).[mu] + 2 * bf1 - 1) (nRanksDir g).[mu]) in
  rankOfCoords g (upd c nu (Z.rem (c.[nu] + (nRanksDir g).[nu] + 2 * bf2 - 1) (nRanksDir g).[nu])).

(** init.cpp:710  isEdgeParallel *)
Definition isEdgeParallel (g : grid) (iEdge : nat) : bool :=
  let '(mu, nu) := edge_dir iEdge in isDirParallel g mu && isDirParallel g nu.

(** base/field.cpp:64-113  startBufEdgesNeighExchange *)
Definition edge_msg (g : grid) (rc : list Z) (divCoeff : Z) (iEdge : nat) (s1 s2 o1 o2 : Z) : msg :=
  mkMsg (rank_edge_neigh g rc o1 o2 iEdge) (s2 + 2 * (s1 + 2 * Z.of_nat iEdge))
        (Z.quot (edge_offset g iEdge + Z.quot (edgeVol g * (o2 + 2 * o1)) 4) divCoeff)
        (Z.quot (edge_dir_vol g iEdge) divCoeff).
Definition edge_loop : list (nat * (Z * Z)) := list_prod (seq 0 nEdges) (list_prod [0;1] [0;1]).
Definition edge_sends (g : grid) (rc : list Z) (divCoeff : Z) : list msg :=
  map (fun '(e, (s1, s2)) => edge_msg g rc divCoeff e s1 s2 s1 s2)
      (filter (fun p => isEdgeParallel g (fst p)) edge_loop).
Definition edge_recvs (g : grid) (rc : list Z) (divCoeff : Z) : list msg :=
  map (fun '(e, (s1, s2)) => edge_msg g rc divCoeff e s1 s2 (1 - s1) (1 - s2))
      (filter (fun p => isEdgeParallel g (fst p)) edge_loop).

(** MPI point to point semantics.  A receive posted on rank r from src with a tag completes with the
    message that src sent to r with that tag.  When more than one such message, or none, exists, or
    the lengths differ, the outcome is None (ambiguous match, hang, truncation error). *)
Definition recv_one {A} (sends : Z -> list msg) (sb : Z -> table A) (r : Z)
           (rb : option (table A)) (m : msg) : option (table A) :=
  match rb, filter (fun s => (peer s =? r) && (tag s =? tag m)) (sends (peer m)) with
  | Some rb, [s] =>
      if len s =? len m then
        Some (fun j => if (off m <=? j) && (j <? off m + len m)
                       then sb (peer m) (off s + (j - off m)) else rb j)
      else None
  | _, _ => None
  end.
Definition recv_all {A} (sends : Z -> list msg) (sb : Z -> table A) (r : Z) (recvs : list msg) : option (table A) :=
  fold_left (recv_one sends sb r) recvs (Some tempty).

(** the tables of rank r *)
Definition rank_labels (g : grid) (r : Z) : labels := label_all_sites g (coordOfRank g r).

(** field.hpp:1133-1159  fillSendingBufWithSurface / fillSendingBufWithEdgesSurface *)
Definition fill_send {A} (surf : table Z) (data : table A) : table A :=
  fun b => match surf b with Some s => data s | None => None end.

(** field.hpp:1195-1231  fillHaloWithReceivingBuf / fillEdgesWithReceivingBuf *)
Definition fill_from_recv {A} (offset n : Z) (rb data : table A) : table A :=
  fun i => if (offset <=? i) && (i <? offset + n) then rb (i - offset) else data i.

(** field.hpp:371-384, 1287-1320  updateHalo (communication part) executed by all the ranks;
    result on rank r *)
Definition updateHalo {A} (g : grid) (sched : Z -> list Z) (data : Z -> table A) (r : Z) : option (table A) :=
  let rcs q := coordOfRank g q in
  let sb q := fill_send (findSurfOfBord g (rcs q) (rank_labels g q) (sched q)) (data q) in
  option_map (fun rb => fill_from_recv (locVol g) (bordVol g) rb (data r))
    (recv_all (fun q => halo_sends g (rcs q) 1) sb r (halo_recvs g (rcs r) 1)).

(** field.hpp:387-402, 1331-1364  edge part of updateEdges *)
Definition updateEdges {A} (g : grid) (sched : Z -> list Z) (data : Z -> table A) (r : Z) : option (table A) :=
  let rcs q := coordOfRank g q in
  let sb q := fill_send (findSurfOfEdges g (rcs q) (rank_labels g q) (sched q)) (data q) in
  option_map (fun rb => fill_from_recv (locVol g + bordVol g) (edgeVol g) rb (data r))
    (recv_all (fun q => edge_sends g (rcs q) 1) sb r (edge_recvs g (rcs r) 1)).
