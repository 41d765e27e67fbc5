(** Even/odd geometry: src/geometry/geometry_eo.cpp, geometry_mix.hpp and the even/odd halo exchange
    of base/field.hpp. *)
From Verif Require Import Base GeometryModel HaloModel.

(** geometry_eo.cpp:24-31  glb_coord_parity (C++ remainder) *)
Definition glb_coord_parity (c : list Z) : Z := Z.rem (fold_left Z.add c 0) 2.

(** geometry_eo.cpp:47-50  the abort when a local side is odd *)
Definition eo_grid_ok (g : grid) : bool := forallb (fun mu => Z.rem (locSize g).[mu] 2 =? 0) dirs.

(** geometry_eo.cpp:53-54 and init.cpp:672,701: halved volumes *)
Definition locVolh (g : grid) : Z := Z.quot (locVol g) 2.
Definition edgeVolh (g : grid) : Z := Z.quot (edgeVol g) 2.

(** the tables filled by set_eo_geometry; loclx_of_loceo is indexed by parity, then by e/o index *)
Record eo_tables := mkEo {
  iloc_eo : Z -> Z;
  loclx_parity : table Z;
  loceo_of_loclx : table Z;
  loclx_of_loceo : Z -> table Z }.

Definition eo_empty : eo_tables := mkEo (fun _ => 0) tempty tempty (fun _ => tempty).

(** geometry_eo.cpp:69-80  labelling loop body.  A site without coordinates would leave the tables as
    they are (it cannot happen: all the sites are labelled) *)
Definition eo_label (t : labels) (s : eo_tables) (loclx : Z) : eo_tables :=
  match glbCoordOfLoclx t loclx with
  | None => s
  | Some gc =>
      let par := glb_coord_parity gc in
      let n := iloc_eo s par in
      {| iloc_eo := fun p => if p =? par then n + 1 else iloc_eo s p;
         loclx_parity := tset (loclx_parity s) loclx par;
         loceo_of_loclx := tset (loceo_of_loclx s) loclx n;
         loclx_of_loceo := fun p => if p =? par then tset (loclx_of_loceo s par) n loclx else loclx_of_loceo s p |}
  end.

(** geometry_eo.cpp:67-80 *)
Definition set_eo_geometry (g : grid) (t : labels) : eo_tables :=
  fold_left (eo_label t) (seqZ (locVol g + bordVol g + edgeVol g)) eo_empty.

(** geometry_eo.cpp:82-101  movements among e/o sites: entry written for the site loclx in direction mu.
    up=true is loceo_neighup.  The table is indexed by the parity and the e/o index of loclx. *)
Definition eo_neigh_fill (g : grid) (rc : list Z) (t : labels) (e : eo_tables) (up : bool) (mu : nat)
           (s : Z -> table Z) (loclx : Z) : Z -> table Z :=
  match loclx_parity e loclx, loceo_of_loclx e loclx, loclxNeigh g rc t up loclx mu with
  | Some par, Some loceo, Some n =>
      if (0 <=? n) && (n <? locVol g + bordVol g + edgeVol g) then
        match loceo_of_loclx e n with
        | Some v => fun p => if p =? par then tset (s par) loceo v else s p
        | None => s
        end
      else s
  | _, _, _ => s
  end.
Definition loceo_neigh (g : grid) (rc : list Z) (t : labels) (e : eo_tables) (up : bool) (mu : nat) : Z -> table Z :=
  fold_left (eo_neigh_fill g rc t e up mu) (seqZ (locVol g + bordVol g + edgeVol g)) (fun _ => tempty).

(** geometry_eo.cpp:103-108 and 110-115  surfeo_of_bordeo / surfeo_of_edgeo:
    n is bordVol (edgeVol), base is locVol (locVol+bordVol), baseh is locVolh (locVolh+bordVolh) *)
Definition surfeo_fill (e : eo_tables) (surf : table Z) (base baseh : Z) (s : Z -> table Z) (b : Z) : Z -> table Z :=
  match surf b with
  | None => s
  | Some surflx =>
      match loclx_parity e surflx, loceo_of_loclx e (b + base), loceo_of_loclx e surflx with
      | Some par, Some eo, Some v => fun p => if p =? par then tset (s par) (eo - baseh) v else s p
      | _, _, _ => s
      end
  end.
Definition surfeo_of_bordeo (g : grid) (e : eo_tables) (surf : table Z) : Z -> table Z :=
  fold_left (surfeo_fill e surf (locVol g) (locVolh g)) (seqZ (bordVol g)) (fun _ => tempty).
Definition surfeo_of_edgeo (g : grid) (e : eo_tables) (surf : table Z) : Z -> table Z :=
  fold_left (surfeo_fill e surf (locVol g + bordVol g) (locVolh g + bordVolh g)) (seqZ (edgeVol g)) (fun _ => tempty).

(** geometry_mix.hpp:46-60  split_lx_vector_into_eo_parts; sched is the execution order of the parallel loop *)
Definition split_step {A} (e : eo_tables) (inLx : table A) (out : Z -> table A) (loclx : Z) : Z -> table A :=
  match loclx_parity e loclx, loceo_of_loclx e loclx, inLx loclx with
  | Some par, Some eo, Some v => fun p => if p =? par then tset (out par) eo v else out p
  | _, _, _ => out
  end.
Definition split_lx_vector_into_eo_parts {A} (e : eo_tables) (sched : list Z) (out : Z -> table A) (inLx : table A) : Z -> table A :=
  fold_left (split_step e inLx) sched out.

(** geometry_mix.hpp:21-40  paste_eo_parts_into_lx_vector *)
Definition paste_step {A} (e : eo_tables) (inEo : Z -> table A) (out : table A) (q : Z * Z) : table A :=
  let '(par, eo) := q in
  match loclx_of_loceo e par eo, inEo par eo with
  | Some loclx, Some v => tset out loclx v
  | _, _ => out
  end.
Definition paste_eo_parts_into_lx_vector {A} (e : eo_tables) (sched : Z -> list Z) (out : table A) (inEo : Z -> table A) : table A :=
  fold_left (paste_step e inEo) (map (pair 0) (sched 0) ++ map (pair 1) (sched 1)) out.

(** geometry_mix.hpp:66-82  get_evn_or_odd_part_of_lx_vector *)
Definition get_evn_or_odd_part {A} (e : eo_tables) (sched : list Z) (out : table A) (inLx : table A) (par : Z) : table A :=
  fold_left (fun out eo => match loclx_of_loceo e par eo with
                           | Some loclx => match inLx loclx with Some v => tset out eo v | None => out end
                           | None => out end) sched out.

Definition rank_eo (g : grid) (r : Z) : eo_tables := set_eo_geometry g (rank_labels g r).

(** field.hpp:371-384,1287-1320 with divCoeff=2: halo update of the par part on all the ranks, result on rank r *)
Definition updateHaloEo {A} (g : grid) (sched : Z -> list Z) (par : Z) (data : Z -> table A) (r : Z) : option (table A) :=
  let rcs q := coordOfRank g q in
  let surf q := surfeo_of_bordeo g (rank_eo g q) (findSurfOfBord g (rcs q) (rank_labels g q) (sched q)) par in
  let sb q := fill_send (surf q) (data q) in
  option_map (fun rb => fill_from_recv (Z.quot (locVol g) 2) (Z.quot (bordVol g) 2) rb (data r))
    (recv_all (fun q => halo_sends g (rcs q) 2) sb r (halo_recvs g (rcs r) 2)).

(** field.hpp:387-402,1331-1364 with divCoeff=2 *)
Definition updateEdgesEo {A} (g : grid) (sched : Z -> list Z) (par : Z) (data : Z -> table A) (r : Z) : option (table A) :=
  let rcs q := coordOfRank g q in
  let surf q := surfeo_of_edgeo g (rank_eo g q) (findSurfOfEdges g (rcs q) (rank_labels g q) (sched q)) par in
  let sb q := fill_send (surf q) (data q) in
  option_map (fun rb => fill_from_recv (Z.quot (locVol g + bordVol g) 2) (Z.quot (edgeVol g) 2) rb (data r))
    (recv_all (fun q => edge_sends g (rcs q) 2) sb r (edge_recvs g (rcs r) 2)).
